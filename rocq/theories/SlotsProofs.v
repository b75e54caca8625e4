From Coq Require Import String Ascii List Bool NArith Arith Lia.
From Verif Require Import StrUtil HeadersModel CacheControlModel SlotsModel SlotsSpec.
Import ListNotations.

Section Limit.
Context (limit : N) (Hlimit : (limit < usize)%N).

Definition ok (s : state) : Prop :=
  held s (counter s) /\ (counter s <= limit)%N /\
  (forall t p, phases s t = Trying p -> (p < limit)%N).

Lemma held_ext s s' n : (forall t, holds s' t = holds s t) -> held s n -> held s' n.
Proof.
  intros H [ts [ND [I L]]]. exists ts. split; [exact ND|]. split; [|exact L].
  intro t. rewrite H. apply I.
Qed.

Lemma put_same t p f : put t p f t = p.
Proof. unfold put. rewrite Nat.eqb_refl. reflexivity. Qed.
Lemma put_other t u p f : u <> t -> put t p f u = f u.
Proof. intro H. unfold put. apply Nat.eqb_neq in H. rewrite H. reflexivity. Qed.

Lemma decide_not_holding c : decide limit c <> Holding.
Proof. unfold decide. destruct (N.ltb c limit); discriminate. Qed.

Lemma decide_trying c p : decide limit c = Trying p -> p = c /\ (c < limit)%N.
Proof.
  unfold decide. destruct (N.ltb_spec c limit); intro E; [|discriminate].
  injection E as <-. split; [reflexivity|assumption].
Qed.

Lemma ok_redecide s t c :
  ok s -> holds s t = false ->
  ok {| counter := counter s; phases := put t (decide limit c) (phases s) |}.
Proof.
  intros [H [L T]] NH. split; [|split].
  - cbn [counter]. apply (held_ext s); [|exact H]. intro u. unfold holds in *. cbn [phases].
    destruct (Nat.eq_dec u t) as [->|Hn].
    + rewrite put_same. destruct (decide limit c) eqn:D; try (symmetry; exact NH).
      exfalso. exact (decide_not_holding c D).
    + rewrite (put_other t u) by exact Hn. reflexivity.
  - exact L.
  - intros u p. cbn [phases]. destruct (Nat.eq_dec u t) as [->|Hn].
    + rewrite put_same. intro D. apply decide_trying in D. destruct D as [-> D]. exact D.
    + rewrite (put_other t u) by exact Hn. apply T.
Qed.

Lemma ok_init : ok init.
Proof.
  split; [|split].
  - exists []. split; [constructor|]. split; [|reflexivity]. intro t. cbn. split; [intros []|discriminate].
  - cbn. lia.
  - intros t p H. discriminate.
Qed.

Lemma ok_step s e : ok s -> ok (step limit s e).
Proof.
  intro O. destruct e as [t|t sp|t]; cbn [step].
  - destruct (phases s t) eqn:E; try exact O.
    apply ok_redecide; [exact O|]. unfold holds. rewrite E. reflexivity.
  - destruct (phases s t) as [|p| | |] eqn:E; try exact O.
    destruct (N.eqb_spec (counter s) p) as [Ec|Ec]; cbn [andb]; [destruct sp; cbn [negb]|].
    + apply ok_redecide; [exact O|]. unfold holds. rewrite E. reflexivity.
    + destruct O as [[ts [ND [I Len]]] [L T]]. pose proof (T t p E) as Lp. split; [|split].
      * exists (t :: ts). split; [|split].
        -- constructor; [|exact ND]. intro Hi. apply I in Hi. unfold holds in Hi. rewrite E in Hi. discriminate.
        -- intro u. unfold holds. cbn [phases]. destruct (Nat.eq_dec u t) as [->|Hn].
           ++ rewrite put_same. split; [reflexivity|left; reflexivity].
           ++ rewrite (put_other t u) by exact Hn. fold (holds s u). rewrite <- I. split.
              ** intros [->|H]; [congruence|exact H].
              ** right. assumption.
        -- cbn [length counter]. lia.
      * cbn [counter]. lia.
      * intros u q. cbn [phases]. destruct (Nat.eq_dec u t) as [->|Hn].
        -- rewrite put_same. discriminate.
        -- rewrite (put_other t u) by exact Hn. apply T.
    + apply ok_redecide; [exact O|]. unfold holds. rewrite E. reflexivity.
  - destruct (phases s t) eqn:E; try exact O.
    destruct O as [[ts [ND [I Len]]] [L T]].
    assert (Ht : In t ts) by (apply I; unfold holds; rewrite E; reflexivity).
    apply in_split in Ht. destruct Ht as [l1 [l2 Ets]]. subst ts.
    rewrite app_length in Len. cbn [length] in Len.
    assert (Em : ((counter s + (usize - 1)) mod usize = counter s - 1)%N).
    { replace (counter s + (usize - 1))%N with ((counter s - 1) + 1 * usize)%N by lia.
      rewrite N.mod_add by discriminate. apply N.mod_small. lia. }
    rewrite Em. split; [|split].
    + exists (l1 ++ l2). split; [exact (NoDup_remove_1 _ _ _ ND)|]. split.
      * intro u. unfold holds. cbn [phases]. destruct (Nat.eq_dec u t) as [->|Hn].
        -- rewrite put_same. split; [|discriminate]. intro H. exfalso. exact (NoDup_remove_2 _ _ _ ND H).
        -- rewrite (put_other t u) by exact Hn. fold (holds s u). rewrite <- I.
           rewrite !in_app_iff. cbn [In]. intuition congruence.
      * cbn [counter]. rewrite app_length. lia.
    + cbn [counter]. lia.
    + intros u p. cbn [phases]. destruct (Nat.eq_dec u t) as [->|Hn].
      * rewrite put_same. discriminate.
      * rewrite (put_other t u) by exact Hn. apply T.
Qed.

Lemma run_app s l1 l2 : run limit s (l1 ++ l2) = run limit (run limit s l1) l2.
Proof. revert s. induction l1 as [|e l1 IH]; intro s; cbn [run app]; [reflexivity|apply IH]. Qed.

Lemma ok_run es s : ok s -> ok (run limit s es).
Proof. revert s. induction es as [|e es IH]; intros s O; cbn [run]; [exact O|]. apply IH, ok_step, O. Qed.

Lemma held_bounded es : held (run limit init es) (counter (run limit init es)) /\
  (counter (run limit init es) <= limit)%N.
Proof. destruct (ok_run es init ok_init) as [H [L _]]. split; assumption. Qed.

Lemma nodup_same_length (l1 l2 : list nat) :
  NoDup l1 -> NoDup l2 -> (forall t, In t l1 <-> In t l2) -> length l1 = length l2.
Proof.
  intros N1 N2 H. apply Nat.le_antisymm; apply NoDup_incl_length; try assumption; intros t; apply H.
Qed.

Lemma held_fun s n m : held s n -> held s m -> n = m.
Proof.
  intros [l1 [N1 [I1 <-]]] [l2 [N2 [I2 <-]]]. f_equal. apply nodup_same_length; try assumption.
  intro t. rewrite I1, I2. reflexivity.
Qed.

(** A refusal happens at a moment when all slots are held. *)
Lemma refused_full s e t :
  ok s -> ~ is_refused s t -> is_refused (step limit s e) t -> held s limit.
Proof.
  intros [H [L T]] N R. unfold is_refused in *.
  assert (D : forall c u, counter s = c -> put u (decide limit c) (phases s) t = Refused -> held s limit).
  { intros c u <- P. destruct (Nat.eq_dec t u) as [->|Hn].
    - rewrite put_same in P. unfold decide in P.
      destruct (N.ltb_spec (counter s) limit) as [Hl|Hl]; [discriminate|].
      replace limit with (counter s) by lia. exact H.
    - rewrite (put_other u t) in P by exact Hn. contradiction. }
  destruct e as [u|u sp|u]; cbn [step] in R.
  - destruct (phases s u) eqn:E; try contradiction. exact (D _ u eq_refl R).
  - destruct (phases s u) as [|p| | |] eqn:E; try contradiction.
    destruct (N.eqb (counter s) p && negb sp).
    + cbn [phases] in R. destruct (Nat.eq_dec t u) as [->|Hn].
      * rewrite put_same in R. discriminate.
      * rewrite (put_other u t) in R by exact Hn. contradiction.
    + exact (D _ u eq_refl R).
  - destruct (phases s u) eqn:E; try contradiction. cbn [phases] in R.
    destruct (Nat.eq_dec t u) as [->|Hn].
    + rewrite put_same in R. discriminate.
    + rewrite (put_other u t) in R by exact Hn. contradiction.
Qed.

Lemma refusal_moment es t :
  is_refused (run limit init es) t ->
  exists before e after, es = before ++ e :: after /\ held (run limit init before) limit /\
    ~ is_refused (run limit init before) t /\ is_refused (run limit init (before ++ [e])) t.
Proof.
  induction es as [|e es IH] using rev_ind; intro R; [discriminate|].
  destruct (phases (run limit init es) t) eqn:E;
    try (exists es, e, []; split; [reflexivity|];
         assert (N : ~ is_refused (run limit init es) t) by (unfold is_refused; rewrite E; discriminate);
         split; [|split; [exact N|exact R]];
         rewrite run_app in R; cbn [run] in R;
         exact (refused_full _ e t (ok_run es init ok_init) N R)).
  destruct (IH E) as [b [e' [a [-> [H1 [H2 H3]]]]]].
  exists b, e', (a ++ [e])%list. split; [rewrite <- app_assoc; reflexivity|]. split; [exact H1|]. split; assumption.
Qed.

(** With a slot free and nobody interfering, a reservation succeeds. *)
Lemma alone_succeeds es t :
  phases (run limit init es) t = Fresh -> ~ held (run limit init es) limit ->
  phases (run limit init (es ++ alone t)) t = Holding.
Proof.
  intros F N. rewrite run_app. set (s := run limit init es) in *.
  destruct (ok_run es init ok_init : ok s) as [H [L _]].
  assert (Lt : (counter s < limit)%N).
  { destruct (N.eq_dec (counter s) limit) as [E|E]; [|lia]. exfalso. apply N. rewrite <- E. exact H. }
  unfold alone. cbn [run]. cbn [step]. rewrite F. unfold decide. apply N.ltb_lt in Lt. rewrite Lt.
  cbn [phases counter]. rewrite put_same. rewrite N.eqb_refl. cbn [andb negb phases]. apply put_same.
Qed.

(** Each slot is given back once: afterwards the reservation never holds again. *)
Lemma released_stays es s t : phases s t = Released -> phases (run limit s es) t = Released.
Proof.
  revert s. induction es as [|e es IH]; intros s R; cbn [run]; [exact R|]. apply IH.
  destruct e as [u|u sp|u]; cbn [step]; destruct (phases s u) eqn:E; try exact R.
  all: assert (t <> u) by (intros ->; congruence).
  - cbn [phases]. rewrite put_other by assumption. exact R.
  - destruct (N.eqb (counter s) p && negb sp); cbn [phases]; rewrite put_other by assumption; exact R.
  - cbn [phases]. rewrite put_other by assumption. exact R.
Qed.

Lemma release_frees es t n :
  phases (run limit init es) t = Holding -> held (run limit init es) n ->
  held (run limit init (es ++ [Drop t])) (n - 1) /\ phases (run limit init (es ++ [Drop t])) t = Released.
Proof.
  intros H Hn. pose proof (ok_run (es ++ [Drop t]) init ok_init) as [H2 _].
  pose proof (ok_run es init ok_init) as [H1 [L _]].
  rewrite run_app in *. cbn [run] in *. set (s := run limit init es) in *.
  assert (En : n = counter s) by (eapply held_fun; eassumption).
  cbn [step] in *. rewrite H in *. split; [|apply put_same].
  assert (Pos : (0 < counter s)%N).
  { destruct Hn as [ts [_ [I Len]]]. assert (In t ts) by (apply I; unfold holds; rewrite H; reflexivity).
    destruct ts; [contradiction|]. cbn [length] in Len. lia. }
  assert (Em : ((counter s + (usize - 1)) mod usize = counter s - 1)%N).
  { replace (counter s + (usize - 1))%N with ((counter s - 1) + 1 * usize)%N by lia.
    rewrite N.mod_add by discriminate. apply N.mod_small. lia. }
  rewrite Em in *. rewrite En. exact H2.
Qed.

Lemma all_released es :
  (forall t, holds (run limit init es) t = false) -> counter (run limit init es) = 0%N.
Proof.
  intro H. destruct (held_bounded es) as [[ts [_ [I Len]]] _]. destruct ts as [|t ts]; [cbn in Len; lia|].
  exfalso. assert (holds (run limit init es) t = true) by (apply I; left; reflexivity). rewrite H in *. discriminate.
Qed.
End Limit.

(** ** Requests *)
Lemma ordinary_admitted cfg held c :
  c_subscription c = false -> is_websocket_upgrade (c_headers c) = false -> admit cfg held c = Some held.
Proof.
  intros S1 W. unfold admit, reservations. rewrite S1, W, andb_false_r.
  destruct (N.eqb (max_clients cfg) 0); reflexivity.
Qed.

Lemma disabled_admits cfg held c : max_clients cfg = 0%N -> admit cfg held c = Some held.
Proof. intro H. unfold admit, reservations. rewrite H. reflexivity. Qed.

Lemma single_admitted cfg held c :
  (held < max_clients cfg)%N -> is_websocket_upgrade (c_headers c) = false \/ c_subscription c = false \/
    websocket_enabled cfg = false ->
  exists n, admit cfg held c = Some n /\ (n <= held + 1)%N.
Proof.
  intros L H. unfold admit, reservations.
  destruct (N.eqb_spec (max_clients cfg) 0) as [E|E]; [exists held; split; [reflexivity|lia]|].
  apply N.ltb_lt in L.
  assert (Hc : ((if websocket_enabled cfg && is_websocket_upgrade (c_headers c) then 1 else 0) +
          (if c_subscription c then 1 else 0) <= 1)%nat).
  { destruct H as [-> |[-> | ->]]; cbn [andb]; rewrite ?andb_false_r;
      destruct (websocket_enabled cfg), (is_websocket_upgrade (c_headers c)), (c_subscription c); cbn; lia. }
  destruct ((if websocket_enabled cfg && is_websocket_upgrade (c_headers c) then 1 else 0) +
          (if c_subscription c then 1 else 0)) as [|[|k]]; [| |lia].
  - exists held. split; [reflexivity|lia].
  - exists (held + 1)%N. cbn [reserve_alone]. rewrite L. split; [reflexivity|lia].
Qed.

(** ** WebSocket requests *)
Local Open Scope string_scope.
Lemma visible_iff v : visible v <-> to_str v = Some v.
Proof.
  unfold to_str. assert (visible v <-> all_chars visible_char v = true) as ->.
  { unfold visible. induction v as [|a v IH]; cbn [all_chars]; [split; [reflexivity|intros _ i c H; discriminate]|].
    rewrite andb_true_iff, <- IH. unfold visible_char. split.
    - intros H. split; [specialize (H 0 a eq_refl); cbv zeta; rewrite ?orb_true_iff, ?andb_true_iff, ?N.leb_le, ?N.ltb_lt, ?N.eqb_eq; lia|].
      intros i c Hc. apply (H (S i) c Hc).
    - intros [H1 H2] [|i] c Hc; [|apply (H2 i c Hc)]. cbn in Hc. injection Hc as <-. cbv zeta in H1.
      rewrite ?orb_true_iff, ?andb_true_iff, ?N.leb_le, ?N.ltb_lt, ?N.eqb_eq in H1. lia. }
  destruct (all_chars visible_char v); split; congruence.
Qed.
Lemma starts_iff p s : starts_with p s = true <-> exists r, s = p ++ r.
Proof.
  revert s; induction p as [|a p IH]; intros s; cbn; [split; [exists s; reflexivity|reflexivity]|].
  destruct s as [|b s]; [split; [discriminate|intros (r & H); discriminate]|].
  rewrite andb_true_iff, IH. destruct (Ascii.eqb_spec a b) as [->|Hn]; split.
  - intros (_ & r & ->). exists r; reflexivity.
  - intros (r & H). injection H as ->. split; [reflexivity|exists r; reflexivity].
  - intros (H & _); discriminate.
  - intros (r & H). injection H as ? ?. congruence.
Qed.
Lemma contains_iff p s : contains p s = true <-> exists a b, s = a ++ p ++ b.
Proof.
  induction s as [|c s IH]; cbn [contains]; rewrite orb_true_iff, starts_iff.
  - split; [intros [(r & H)|H]; [exists "", r; exact H|discriminate]|].
    intros (a & b & H). left. destruct a; [exists b; exact H|discriminate].
  - rewrite IH. split.
    + intros [(r & H)|(a & b & ->)]; [exists "", r; exact H|exists (String c a), b; reflexivity].
    + intros (a & b & H). destruct a as [|a0 a]; [left; exists b; exact H|]. right. injection H as -> ->. exists a, b; reflexivity.
Qed.
Lemma websocket_iff h : is_websocket_upgrade h = true <-> wants_websocket h.
Proof.
  unfold is_websocket_upgrade, wants_websocket. rewrite andb_true_iff.
  assert (forall o v, match o with Some v => to_str v | None => None end = Some v <-> o = Some v /\ visible v) as T.
  { intros [w|] v; [|split; [discriminate|intros [? _]; discriminate]]. rewrite visible_iff. unfold to_str at 1.
    split.
    - destruct (all_chars visible_char w) eqn:E; [|discriminate]. intros H; injection H as <-. split; [reflexivity|].
      unfold to_str. rewrite E. reflexivity.
    - intros [H1 H2]. injection H1 as <-. exact H2. }
  destruct (match hget "upgrade" h with Some v => to_str v | None => None end) as [u|] eqn:Eu.
  - apply T in Eu as [Eu Vu]. destruct (match hget "connection" h with Some v => to_str v | None => None end) as [c|] eqn:Ec.
    + apply T in Ec as [Ec Vc]. rewrite contains_iff. split.
      * intros [H1 H2]. apply String.eqb_eq in H1. exists u, c. auto 8.
      * intros (u' & c' & H1 & H2 & _ & _ & H3 & H4). rewrite Eu in H1. rewrite Ec in H2. injection H1 as <-. injection H2 as <-.
        split; [apply String.eqb_eq; exact H3|exact H4].
    + split; [intros [_ H]; discriminate|]. intros (u' & c' & _ & H2 & _ & V & _).
      pose proof (proj2 (T (hget "connection" h) c') (conj H2 V)) as H. congruence.
  - split; [intros [H _]; discriminate|]. intros (u' & c' & H1 & _ & V & _).
    pose proof (proj2 (T (hget "upgrade" h) u') (conj H1 V)) as H. congruence.
Qed.
Lemma takes_a_slot cfg held c : max_clients cfg <> 0%N ->
  (websocket_enabled cfg = true /\ wants_websocket (c_headers c) /\ c_subscription c = false) \/
  (c_subscription c = true /\ (websocket_enabled cfg = false \/ ~ wants_websocket (c_headers c))) ->
  admit cfg held c = if N.ltb held (max_clients cfg) then Some (held + 1)%N else None.
Proof.
  intros Hm H. unfold admit, reservations. destruct (N.eqb_spec (max_clients cfg) 0); [contradiction|].
  rewrite <- websocket_iff in H.
  assert (((if websocket_enabled cfg && is_websocket_upgrade (c_headers c) then 1 else 0) + (if c_subscription c then 1 else 0)) = 1)%nat as ->.
  { destruct H as [(-> & -> & ->)|(-> & [->|H])]; try reflexivity. apply not_true_iff_false in H. rewrite H, andb_false_r. reflexivity. }
  reflexivity.
Qed.
