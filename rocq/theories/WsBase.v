(* Facts about logs and lists of tasks *)
From Coq Require Import String List Bool Arith NArith Lia.
From Verif Require Import WsModel WsSpec.
Import ListNotations.
Open Scope list_scope.

Lemma said_app : forall n a b, said n (a ++ b) = said n a ++ said n b.
Proof. intros. unfold said. apply flat_map_app. Qed.

Lemma heard_app : forall n a b, heard n (a ++ b) = heard n a ++ heard n b.
Proof. intros. unfold heard. apply flat_map_app. Qed.

Lemma asked_app : forall a b, asked (a ++ b) = asked a ++ asked b.
Proof. intros. unfold asked. apply flat_map_app. Qed.

Lemma snoc_split : forall A (l1 : list A) e l2 l x,
  l1 ++ e :: l2 = l ++ [x] ->
  (l2 = [] /\ e = x /\ l1 = l) \/ (exists l2', l2 = l2' ++ [x] /\ l = l1 ++ e :: l2').
Proof.
  intros A l1 e l2 l x E. destruct (exists_last (l := e :: l2)) as [q [y Hy]]; [discriminate|].
  rewrite Hy in E. rewrite app_assoc in E. apply app_inj_tail in E as [E ->].
  destruct l2 as [|z l2].
  - destruct q; [|destruct q; discriminate]. cbn in Hy. injection Hy as ->.
    left. rewrite app_nil_r in E. now subst.
  - right. destruct q as [|w q]; [discriminate|]. cbn in Hy. injection Hy as -> Hy.
    exists q. split; [exact Hy|]. now subst.
Qed.

Lemma before_snoc : forall P Q l x,
  before P Q l -> (Q x -> exists y, In y l /\ P y) -> before P Q (l ++ [x]).
Proof.
  intros P Q l x B K l1 e l2 E q. symmetry in E.
  destruct (snoc_split _ _ _ _ _ _ E) as [(_ & -> & ->)|(l2' & _ & ->)].
  - exact (K q).
  - exact (B l1 e l2' eq_refl q).
Qed.

Lemma before_nil : forall P Q, before P Q [].
Proof. intros P Q l1 e l2 E. destruct l1; discriminate. Qed.

Definition no_outcome (n : nat) (log : list entry) : Prop :=
  forall o, ~ In (EIn (AOutcome n o)) log.

(* The entries say nothing about n. *)
Definition quiet (n : nat) (x : list entry) : Prop :=
  said n x = [] /\ heard n x = [] /\ no_outcome n x.

Lemma quiet_nil : forall n, quiet n [].
Proof. intro n. repeat split; intros o []. Qed.

Lemma quiet_app : forall n a b, quiet n a -> quiet n b -> quiet n (a ++ b).
Proof.
  intros n a b (A & B & C) (D & E & F). repeat split.
  - now rewrite said_app, A, D.
  - now rewrite heard_app, B, E.
  - intros o J. apply in_app_or in J as [J|J]; [exact (C o J)|exact (F o J)].
Qed.

(* An action that is none of those of the instance n *)
Definition other (n : nat) (a : act) : Prop :=
  match a with
  | AOutcome k _ | AEvent k _ => k <> n
  | _ => True
  end.

Lemma quiet_in : forall n a, other n a -> quiet n [EIn a].
Proof.
  intros n a O. repeat split.
  - destruct a as [f|k o|k|k e|k|k|k| |]; try reflexivity; cbn in O |- *.
    + destruct o; try reflexivity. destruct (Nat.eqb_spec k n); [contradiction|reflexivity].
    + destruct e; try reflexivity. destruct (Nat.eqb_spec k n); [contradiction|reflexivity].
  - intros o [J|[]]. injection J as ->. now apply O.
Qed.

Lemma quiet_none : forall n ms, quiet n (map (EOut None) ms).
Proof.
  intros n ms. induction ms as [|m ms IH]; [apply quiet_nil|].
  change (map (EOut None) (m :: ms)) with ([EOut None m] ++ map (EOut None) ms).
  apply quiet_app; [|exact IH]. repeat split. intros o [J|[]]. discriminate.
Qed.

Lemma quiet_some : forall n k ms, k <> n -> quiet n (map (EOut (Some k)) ms).
Proof.
  intros n k ms D. induction ms as [|m ms IH]; [apply quiet_nil|].
  change (map (EOut (Some k)) (m :: ms)) with ([EOut (Some k) m] ++ map (EOut (Some k)) ms).
  apply quiet_app; [|exact IH]. repeat split.
  - cbn. destruct (Nat.eqb_spec k n); [contradiction|reflexivity].
  - intros o [J|[]]. discriminate.
Qed.

Lemma said_some : forall n ms, said n (map (EOut (Some n)) ms) = ms.
Proof.
  intros n ms. induction ms as [|m ms IH]; [reflexivity|].
  cbn. rewrite Nat.eqb_refl. cbn. unfold said in IH. now rewrite IH.
Qed.

Lemma heard_some : forall n k ms, heard n (map (EOut (Some k)) ms) = [].
Proof. intros n k ms. induction ms as [|m ms IH]; [reflexivity|exact IH]. Qed.

(* The invariant of one task *)
Definition task_inv (log : list entry) (t : task) : Prop :=
  let n := t_inst t in
  let i := t_id t in
  match t_phase t with
  | Waiting => said n log = [] /\ heard n log = [] /\ no_outcome n log
  | Replying m =>
      (exists b, said n log = [answer i b] /\ heard n log = [b] /\ m = MComplete i)
      \/ (exists e w, said n log = [MError i e] /\ heard n log = [] /\ m = MClose 4403%N w)
  | Looping => said n log = map (answer i) (heard n log) /\ In (EIn (AOutcome n OStream)) log
  | Last =>
      said n log = map (answer i) (heard n log)
      \/ (exists e, In (EIn (AEvent n (EError e))) log
                    /\ said n log = map (answer i) (heard n log) ++ [MError i e])
  | Ending => finished n i log
  end.

Lemma finished_quiet : forall n i log x,
  quiet n x -> finished n i log -> finished n i (log ++ x).
Proof.
  intros n i log x (A & B & _) F.
  assert (S1 : said n (log ++ x) = said n log) by now rewrite said_app, A, app_nil_r.
  assert (H1 : heard n (log ++ x) = heard n log) by now rewrite heard_app, B, app_nil_r.
  destruct F as [J E|E|e H E|e J E|e w H E|H E].
  - apply fin_cancelled; [apply in_or_app; now left|now rewrite S1, H1].
  - apply fin_completed. now rewrite S1, H1.
  - apply (fin_failed _ _ _ e); [now rewrite H1|now rewrite S1].
  - apply (fin_stream_failed _ _ _ e); [apply in_or_app; now left|now rewrite S1, H1].
  - apply (fin_forbidden _ _ _ e w); [now rewrite H1|now rewrite S1].
  - apply fin_broken; [now rewrite H1|now rewrite S1].
Qed.

Lemma task_quiet : forall log x t,
  quiet (t_inst t) x -> task_inv log t -> task_inv (log ++ x) t.
Proof.
  intros log x t Q T. assert (Q' := Q). destruct Q' as (A & B & C). unfold task_inv in *.
  assert (S1 : said (t_inst t) (log ++ x) = said (t_inst t) log) by now rewrite said_app, A, app_nil_r.
  assert (H1 : heard (t_inst t) (log ++ x) = heard (t_inst t) log) by now rewrite heard_app, B, app_nil_r.
  destruct (t_phase t); try rewrite S1, H1.
  - destruct T as (T1 & T2 & T3). split; [exact T1|]. split; [exact T2|].
    intros o J. apply in_app_or in J as [J|J]; [exact (T3 o J)|exact (C o J)].
  - exact T.
  - destruct T as [T1 T2]. split; [exact T1|]. apply in_or_app. now left.
  - destruct T as [T|(e & J & T)]; [now left|]. right. exists e. split; [|exact T]. apply in_or_app. now left.
  - now apply finished_quiet.
Qed.

Lemma find_in : forall n l t, find_task n l = Some t -> In t l /\ t_inst t = n.
Proof.
  intros n l t. induction l as [|u l IH]; cbn; [discriminate|].
  destruct (Nat.eqb_spec (t_inst u) n) as [E|E].
  - intro H. injection H as ->. split; [now left|exact E].
  - intro H. destruct (IH H) as [J K]. split; [now right|exact K].
Qed.

Lemma in_find : forall l t, NoDup (map t_inst l) -> In t l -> find_task (t_inst t) l = Some t.
Proof.
  intros l t. induction l as [|u l IH]; cbn; [intros _ []|]. intros N [->|J].
  - now rewrite Nat.eqb_refl.
  - inversion N as [|? ? K N']. subst. destruct (Nat.eqb_spec (t_inst u) (t_inst t)) as [E|E].
    + exfalso. apply K. rewrite E. now apply in_map.
    + now apply IH.
Qed.

Lemma set_insts : forall n p l, map t_inst (set_phase n p l) = map t_inst l.
Proof.
  intros n p l. unfold set_phase. rewrite map_map. apply map_ext. intro t.
  destruct (Nat.eqb_spec (t_inst t) n) as [E|E]; [now rewrite E|reflexivity].
Qed.

Lemma set_in : forall n p l t, In t (set_phase n p l) ->
  (exists u, In u l /\ t_inst u = n /\ t = mktask n (t_id u) p) \/ (In t l /\ t_inst t <> n).
Proof.
  intros n p l t J. unfold set_phase in J. apply in_map_iff in J as (u & E & J).
  destruct (Nat.eqb_spec (t_inst u) n) as [D|D].
  - left. exists u. now repeat split.
  - right. subst. now split.
Qed.

Lemma end_in : forall n l t, In t (end_task n l) <-> In t l /\ t_inst t <> n.
Proof.
  intros n l t. unfold end_task. rewrite filter_In.
  destruct (Nat.eqb_spec (t_inst t) n) as [E|E]; cbn; intuition (congruence || discriminate).
Qed.

Lemma end_nodup : forall n l, NoDup (map t_inst l) -> NoDup (map t_inst (end_task n l)).
Proof.
  intros n l. induction l as [|u l IH]; cbn; [trivial|]. intro N. inversion N as [|? ? K N']. subst.
  destruct (negb (Nat.eqb (t_inst u) n)); cbn; [|now apply IH].
  constructor; [|now apply IH]. intro J. apply K. apply in_map_iff in J as (w & E & J).
  apply end_in in J as [J _]. rewrite <- E. now apply in_map.
Qed.

Lemma one_task : forall l t u, NoDup (map t_inst l) -> In t l -> In u l -> t_inst t = t_inst u -> t = u.
Proof.
  intros l t u N J K E. assert (A := in_find l t N J). assert (B := in_find l u N K).
  rewrite E in A. rewrite A in B. now injection B.
Qed.

Lemma held_release : forall i j l,
  held i (release j l) = if String.eqb i j then None else held i l.
Proof.
  intros i j l. unfold release.
  induction l as [|[k n] l IH]; cbn; [now destruct (String.eqb i j)|].
  destruct (String.eqb_spec k j) as [D|D]; cbn.
  - rewrite IH. subst. destruct (String.eqb_spec i j) as [E|E]; [reflexivity|].
    destruct (String.eqb_spec j i); [congruence|reflexivity].
  - rewrite IH. destruct (String.eqb_spec k i) as [E|E].
    + subst. destruct (String.eqb_spec i j); [contradiction|reflexivity].
    + reflexivity.
Qed.

Lemma held_snoc : forall i j n l,
  held i (l ++ [(j, n)]) =
    match held i l with Some k => Some k | None => if String.eqb j i then Some n else None end.
Proof.
  intros i j n l. induction l as [|[k m] l IH]; cbn; [reflexivity|].
  destruct (String.eqb k i); [reflexivity|exact IH].
Qed.

Lemma held_hold : forall i j n l,
  held i (hold j n l) = if String.eqb i j then Some n else held i l.
Proof.
  intros i j n l. unfold hold. rewrite held_snoc, held_release.
  destruct (String.eqb_spec i j) as [E|E].
  - subst. now rewrite String.eqb_refl.
  - destruct (held i l); [reflexivity|]. destruct (String.eqb_spec j i); [congruence|reflexivity].
Qed.

Lemma snoc_nodup : forall A (l : list A) a, NoDup l -> ~ In a l -> NoDup (l ++ [a]).
Proof.
  intros A l a N J. apply NoDup_rev in N. rewrite <- (rev_involutive (l ++ [a])). apply NoDup_rev.
  rewrite rev_app_distr. cbn. constructor; [|exact N]. now rewrite <- in_rev.
Qed.
