(** The invariant of a pooled connection. *)
From Coq Require Import String List NArith Bool Arith Lia.
From Verif Require Import OwnerModel OwnerSpec.
Import ListNotations.
Local Open Scope string_scope.
Local Open Scope list_scope.

Lemma mem_in w l : mem w l = true <-> In w l.
Proof.
  unfold mem. rewrite existsb_exists. split.
  - intros (x & Hx & E). apply Nat.eqb_eq in E. subst. exact Hx.
  - intros H. exists w. split; [exact H | apply Nat.eqb_refl].
Qed.
Lemma mem_out w l : mem w l = false <-> ~ In w l.
Proof. rewrite <- mem_in. destruct (mem w l); split; congruence. Qed.
Lemma del_in w x l : In x (del w l) <-> In x l /\ x <> w.
Proof.
  unfold del. rewrite filter_In. split; intros (H & E); split; auto.
  - intros ->. rewrite Nat.eqb_refl in E. discriminate.
  - destruct (Nat.eqb w x) eqn:F; [apply Nat.eqb_eq in F; congruence | reflexivity].
Qed.
Lemma del_nodup w l : NoDup l -> NoDup (del w l).
Proof. apply NoDup_filter. Qed.
Lemma del_le w l : length (del w l) <= length l.
Proof. unfold del. induction l as [|x l IH]; cbn; [lia|]. destruct (Nat.eqb w x); cbn; lia. Qed.
Lemma del_out w l : ~ In w l -> del w l = l.
Proof.
  induction l as [|x l IH]; intros H; [reflexivity|]. cbn.
  destruct (Nat.eqb w x) eqn:F; cbn.
  - apply Nat.eqb_eq in F. exfalso. apply H. left. congruence.
  - f_equal. apply IH. intros G. apply H. right. exact G.
Qed.
Lemma del_length w l : NoDup l -> In w l -> length l = S (length (del w l)).
Proof.
  induction l as [|x l IH]; intros D H; [destruct H|]. inversion D as [|? ? O D']; subst. cbn.
  destruct (Nat.eqb w x) eqn:F; cbn.
  - apply Nat.eqb_eq in F. subst. rewrite <- (del_out x l) at 1 by exact O. reflexivity.
  - f_equal. apply IH; auto. destruct H as [->|H]; [rewrite Nat.eqb_refl in F; discriminate | exact H].
Qed.

(** Counting is easier than [NoDup] of concatenations *)
Definition count (w : nat) (l : list nat) : nat := count_occ Nat.eq_dec l w.
Lemma count_app w l l' : count w (l ++ l') = count w l + count w l'.
Proof. apply count_occ_app. Qed.
Lemma count_one w x : count w [x] = if Nat.eq_dec x w then 1 else 0.
Proof. cbn. destruct (Nat.eq_dec x w); reflexivity. Qed.
Lemma count_cons w x l : count w (x :: l) = count w [x] + count w l.
Proof. cbn. destruct (Nat.eq_dec x w); reflexivity. Qed.
Lemma count_del w x l : count w (del x l) = if Nat.eq_dec x w then 0 else count w l.
Proof.
  induction l as [|y l IH].
  - cbn. destruct (Nat.eq_dec x w); reflexivity.
  - unfold del in *. cbn [filter]. destruct (Nat.eqb x y) eqn:F; cbn [negb].
    + apply Nat.eqb_eq in F. subst. rewrite IH, (count_cons w y l), count_one. destruct (Nat.eq_dec y w); reflexivity.
    + apply Nat.eqb_neq in F. rewrite count_cons, IH, (count_cons w y l), count_one.
      destruct (Nat.eq_dec y w), (Nat.eq_dec x w); subst; try congruence; lia.
Qed.
Lemma count_in w l : In w l <-> 1 <= count w l.
Proof. unfold count. rewrite (count_occ_In Nat.eq_dec). lia. Qed.
Lemma count_out w l : ~ In w l <-> count w l = 0.
Proof. unfold count. apply count_occ_not_In. Qed.
Lemma count_filter w f l : count w (filter f l) = if f w then count w l else 0.
Proof.
  induction l as [|y l IH]; [cbn; destruct (f w); reflexivity|]. cbn [filter]. rewrite (count_cons w y l).
  destruct (f y) eqn:F.
  - rewrite (count_cons w y _), IH, count_one. destruct (Nat.eq_dec y w) as [->|]; [rewrite F|]; destruct (f w); lia.
  - rewrite IH, count_one. destruct (Nat.eq_dec y w) as [->|]; [rewrite F|]; destruct (f w); lia.
Qed.
Lemma nodup_count l : NoDup l <-> forall w, count w l <= 1.
Proof. apply (NoDup_count_occ Nat.eq_dec). Qed.

(** Subsequences *)
Lemma sub_refl {A} (l : list A) : subsequence l l.
Proof. induction l; [constructor | apply sub_keep; assumption]. Qed.
Lemma sub_nil_l {A} (l : list A) : subsequence [] l.
Proof. induction l; constructor; assumption. Qed.
Lemma sub_app {A} (a b a' b' : list A) : subsequence a b -> subsequence a' b' -> subsequence (a ++ a') (b ++ b').
Proof. induction 1; intros H'; cbn; [exact H' | apply sub_skip; auto | apply sub_keep; auto]. Qed.
Lemma sub_trans {A} (b c : list A) : subsequence b c -> forall a, subsequence a b -> subsequence a c.
Proof.
  induction 1; intros a Ha; [exact Ha | apply sub_skip; auto |].
  inversion Ha; subst; [apply sub_skip | apply sub_keep]; auto.
Qed.
Lemma sub_drop {A} (a b c l : list A) : subsequence (a ++ b ++ c) l -> subsequence (a ++ c) l.
Proof.
  intros H. apply (sub_trans _ _ H). apply sub_app; [apply sub_refl|].
  change c with ([] ++ c) at 1. apply sub_app; [apply sub_nil_l | apply sub_refl].
Qed.

(** Everyone who has not left is in one place *)
Definition asked (o : owner) : list nat := map fst (answers o).
Definition place (o : owner) (w : nat) : nat :=
  count w (waiting o) + count w (holding o) + count w (queue o) + count w (cur o) + count w (asked o).
Record inv (capacity : nat) (idle : N) (tr : list action) (o : owner) : Prop := mkinv {
  i_once : forall w, place o w <= 1;
  i_all : forall w, w < callers o -> 1 <= place o w + count w (gone o);
  i_bound : forall w, callers o <= w -> place o w + count w (gone o) = 0;
  i_gone : forall w, 1 <= count w (gone o) -> count w (waiting o) + count w (holding o) + count w (asked o) = 0;
  i_running : forall w, In w (running o) -> In (w, Started) (answers o);
  i_run1 : NoDup (running o);
  i_active : active o = length (running o) + completions o;
  i_cap : length (holding o) + length (queue o) <= capacity;
  i_cur : stage o <> Running -> current o = None;
  i_end : stage o = Ended -> holding o = [] /\ queue o = [];
  i_clock : clock o = time tr;
  i_dead : active o = 0 -> forall t, ended_at tr t -> (t + idle <= deadline o)%N;
  i_order : subsequence (started o ++ cur o ++ queue o) (commits tr) }.

Lemma time_app tr a : time (tr ++ [a]) = (time tr + passes a)%N.
Proof. unfold time. induction tr as [|b tr IH]; cbn [app fold_right]; [lia|]. rewrite IH. lia. Qed.
Lemma time_apps tr tr' : (time tr <= time (tr ++ tr'))%N.
Proof. unfold time. induction tr as [|b tr IH]; cbn [app fold_right]; lia. Qed.
Lemma ended_le tr t : ended_at tr t -> (t <= time tr)%N.
Proof. intros (b & w & r & -> & <-). apply time_apps. Qed.
Lemma commits_app tr a : commits (tr ++ [a]) = commits tr ++ match a with Commit w => [w] | _ => [] end.
Proof. unfold commits. rewrite flat_map_app. cbn. rewrite app_nil_r. reflexivity. Qed.
Lemma ended_snoc tr a t : ended_at (tr ++ [a]) t -> ended_at tr t \/ (exists w, a = Finish w) /\ t = time tr.
Proof.
  intros (b & w & r & E & <-). destruct r as [|y r] using rev_ind.
  - apply app_inj_tail in E as (-> & ->). right. split; [exists w|]; reflexivity.
  - clear IHr. rewrite app_comm_cons, app_assoc in E. apply app_inj_tail in E as (-> & ->).
    left. exists b, w, r. split; reflexivity.
Qed.
Lemma ended_quiet tr a t : (forall w, a <> Finish w) -> ended_at (tr ++ [a]) t -> ended_at tr t.
Proof. intros Q H. apply ended_snoc in H as [H|((w & ->) & _)]; [exact H | exfalso; exact (Q w eq_refl)]. Qed.

Lemma asked_tell w a o : map fst (tell w a o) = if mem w (gone o) then asked o else w :: asked o.
Proof. unfold tell, asked. destruct (mem w (gone o)); reflexivity. Qed.
Lemma asked_tell_all l a o : map fst (tell_all l a o) = filter (fun w => negb (mem w (gone o))) l ++ asked o.
Proof. unfold tell_all, asked. rewrite map_app, map_map, map_id. reflexivity. Qed.
Lemma tell_keep w a o x : In x (answers o) -> In x (tell w a o).
Proof. unfold tell. destruct (mem w (gone o)); [auto | right; auto]. Qed.
Definition begun (l : list (nat * answer)) : list nat := rev (flat_map (fun x => match snd x with Started => [fst x] | _ => [] end) l).
Lemma begun_tell w a o : a <> Started -> begun (tell w a o) = begun (answers o).
Proof. unfold tell, begun. destruct (mem w (gone o)); [reflexivity|]. destruct a; [congruence| |]; reflexivity. Qed.
Lemma begun_tell_all l a o : a <> Started -> begun (tell_all l a o) = begun (answers o).
Proof.
  unfold tell_all, begun. intros H. f_equal. rewrite flat_map_app.
  assert (E : forall l0, flat_map (fun x : nat * answer => match snd x with Started => [fst x] | _ => [] end) (map (fun w => (w, a)) l0) = []).
  { intros l0. induction l0 as [|y l0 IH]; [reflexivity|]. cbn. rewrite IH. destruct a; [congruence| |]; reflexivity. }
  rewrite E. reflexivity.
Qed.

Section Inv.
  Variable capacity : nat.
  Variable idle : N.
  Notation inv := (inv capacity idle).
  Notation step := (step capacity idle).
  Notation steps := (steps capacity idle).

  Lemma inv_start : inv [] (start idle).
  Proof.
    constructor; cbn; try (intros; try lia; try constructor; try tauto; fail); try constructor; try lia; auto.
    intros _ t (b & w & r & E & _). destruct b; discriminate.
  Qed.

  Lemma steps_app l l' o : steps o (l ++ l') = match steps o l with Some o' => steps o' l' | None => None end.
  Proof. revert o. induction l as [|a l IH]; intros o; [reflexivity|]. cbn. destruct (step o a); [apply IH | reflexivity]. Qed.

  Lemma count_c w x l : count w (x :: l) = (if Nat.eq_dec x w then 1 else 0) + count w l.
  Proof. cbn. destruct (Nat.eq_dec x w); reflexivity. Qed.
  Lemma count_nil w : count w [] = 0.
  Proof. reflexivity. Qed.
  Definition placed (o : owner) : Prop :=
    (forall w, place o w <= 1) /\ (forall w, w < callers o -> 1 <= place o w + count w (gone o)) /\
    (forall w, callers o <= w -> place o w + count w (gone o) = 0) /\
    (forall w, 1 <= count w (gone o) -> count w (waiting o) + count w (holding o) + count w (asked o) = 0) /\
    (stage o <> Running -> current o = None).

  Ltac facts := repeat match goal with
    | H : mem _ _ = true |- _ => apply mem_in, count_in in H
    | H : mem _ _ = false |- _ => apply mem_out, count_out in H
    | H : negb _ = true |- _ => apply negb_true_iff in H
    | H : _ && _ = true |- _ => apply andb_true_iff in H; destruct H
    | H : Nat.ltb _ _ = true |- _ => apply Nat.ltb_lt in H
    end.
  Ltac counts := repeat first [rewrite count_app in * | rewrite count_del in * | rewrite count_c in * | rewrite count_nil in *].
  Ltac solve_place P1 P2 P3 P4 :=
    facts; repeat split; intros x;
    pose proof (P1 x); pose proof (P2 x); pose proof (P3 x); pose proof (P4 x);
    unfold place, asked, cur in *; cbn [stage waiting holding queue current running completions active clock deadline answers gone callers map fst] in *;
    counts; repeat match goal with |- context [Nat.eq_dec ?a x] => destruct (Nat.eq_dec a x); subst | H : context [Nat.eq_dec ?a x] |- _ => destruct (Nat.eq_dec a x); subst end;
    try lia.

  Ltac cases H := repeat match type of H with context [match ?x with _ => _ end] => destruct x eqn:?; try discriminate H end; try discriminate H.

  Lemma placed_step o a o' : placed o -> step o a = Some o' -> placed o'.
  Proof.
    intros (P1 & P2 & P3 & P4 & P5) H. destruct o as [st wa ho qu cu ru co ac cl de an go ca].
    assert (Q : (st = Running \/ cu = None)) by (destruct st; auto; right; apply P5; discriminate).
    destruct a; cbn [OwnerModel.step] in H.
    16: { destruct st; try discriminate H. destruct qu as [|v qu]; try discriminate H. destruct Q as [Q|Q]; [discriminate Q|]. subst cu.
      unfold tell in H. cbn [gone answers] in H. destruct (mem v go) eqn:?; inversion H; subst; clear H;
      (split; [|split; [|split; [|split; [|cbn; tauto]]]]); solve_place P1 P2 P3 P4. }
    17: { assert (K : o' = mkowner Aborted wa ho [] None ru co ac cl de (tell_all (cur (mkowner st wa ho qu cu ru co ac cl de an go ca) ++ qu) Closed (mkowner st wa ho qu cu ru co ac cl de an go ca)) go ca).
      { destruct st; inversion H; reflexivity. }
      clear H. subst o'. 
      assert (X : forall w, count w (asked (mkowner Aborted wa ho [] None ru co ac cl de (tell_all (cur (mkowner st wa ho qu cu ru co ac cl de an go ca) ++ qu) Closed (mkowner st wa ho qu cu ru co ac cl de an go ca)) go ca))
        = (if mem w go then 0 else count w (cur (mkowner st wa ho qu cu ru co ac cl de an go ca)) + count w qu) + count w (map fst an)).
      { intros w. unfold asked at 1. cbn [answers]. rewrite asked_tell_all, count_app, count_filter. cbn [gone]. unfold asked. cbn [answers].
        rewrite count_app. destruct (mem w go); reflexivity. }
      (split; [|split; [|split; [|split; [|cbn; tauto]]]]); intros w; unfold place; rewrite ?X;
      pose proof (P1 w) as A1; pose proof (P2 w) as A2; pose proof (P3 w) as A3; pose proof (P4 w) as A4; unfold place in *;
      cbn [stage waiting holding queue current running completions active clock deadline answers gone callers] in *; unfold asked in A1, A2, A3, A4; cbn [answers] in *;
      change (cur (mkowner Aborted wa ho [] None ru co ac cl de (tell_all (cur (mkowner st wa ho qu cu ru co ac cl de an go ca) ++ qu) Closed (mkowner st wa ho qu cu ru co ac cl de an go ca)) go ca)) with (@nil nat);
      rewrite ?count_nil; destruct (mem w go) eqn:M; facts; lia. }
    all: cases H; inversion H; subst; clear H; unfold tell in *; cbn [gone answers] in *;
      repeat match goal with |- context [if mem ?a ?b then _ else _] => destruct (mem a b) eqn:? end;
      (split; [|split; [|split; [|split; [|cbn; tauto || exact P5 || (intros; destruct Q; congruence)]]]]); try (solve_place P1 P2 P3 P4).
  Qed.
End Inv.
