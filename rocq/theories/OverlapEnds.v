From Coq Require Import String List NArith ZArith Bool Lia PeanoNat.
From Verif Require Import Ast NormModel NormProofs OverlapModel OverlapSpec OverlapBase OverlapSteps.
Import ListNotations.
Local Open Scope string_scope.
Local Open Scope list_scope.

(** * More fuel gives the same answer *)
Definition grows (a b : state -> outcome) : Prop := forall st r, a st = Some r -> b st = Some r.
Lemma grows_each : forall A (k k' : A -> state -> outcome) l, (forall x, In x l -> grows (k x) (k' x)) -> grows (each k l) (each k' l).
Proof.
  intros A k k'. induction l as [|x l IH]; intros H st r; cbn; [tauto|].
  destruct (k x st) as [[c s]|] eqn:K; [|discriminate]. rewrite (H x (or_introl eq_refl) _ _ K).
  destruct (each k l s) as [[c' s']|] eqn:E; [|discriminate]. now rewrite (IH (fun y I => H y (or_intror I)) _ _ E).
Qed.
Lemma grows_andthen : forall a a' b b', grows a a' -> grows b b' -> grows (andthen a b) (andthen a' b').
Proof.
  intros a a' b b' Ha Hb st r. unfold andthen. destruct (a st) as [[c s]|] eqn:K; [|discriminate]. rewrite (Ha _ _ K).
  destruct (b s) as [[c' s']|] eqn:E; [|discriminate]. now rewrite (Hb _ _ E).
Qed.
Lemma grows_until : forall k k' l, (forall x, In x l -> grows (k x) (k' x)) -> grows (until k l) (until k' l).
Proof.
  intros k k'. induction l as [|x l IH]; intros H st r; cbn; [tauto|]. destruct (smem x (visited st)); [tauto|].
  apply grows_andthen; [apply H; now left|]. apply IH. intros y I. apply H. now right.
Qed.

Section Fuel.
  Variable sch : list tdef.
  Variable doc : list definition.
  Lemma grows_pairs : forall n n' m l, (forall k e1 e2, grows (find_conflict sch doc n k e1 e2 m) (find_conflict sch doc n' k e1 e2 m)) ->
    grows (each_pair sch doc n m l) (each_pair sch doc n' m l).
  Proof. intros n n' m l H. unfold each_pair. apply grows_each. intros [[k e1] e2] _. apply H. Qed.

  Lemma fuel_step : forall n,
    (forall k e1 e2 m, grows (find_conflict sch doc n k e1 e2 m) (find_conflict sch doc (S n) k e1 e2 m))
    /\ (forall m p1 s1 p2 s2, grows (between_sets sch doc n m p1 s1 p2 s2) (between_sets sch doc (S n) m p1 s1 p2 s2))
    /\ (forall m1 a m, grows (fields_fragment sch doc n m1 a m) (fields_fragment sch doc (S n) m1 a m))
    /\ (forall a b m, grows (fragment_fragment sch doc n a b m) (fragment_fragment sch doc (S n) a b m)).
  Proof.
    induction n as [|n (IH1 & IH2 & IH3 & IH4)]; [split; [|split; [|split]]; intros; intros st r; discriminate|].
    split; [|split; [|split]].
    - intros k e1 e2 m st r. rewrite (find_step _ _ (S n)), find_step. cbv zeta.
      destruct (negb _ && negb _); [tauto|]. destruct (negb _ && negb _); [tauto|].
      destruct (match e_def e1, e_def e2 with Some t1, Some t2 => if type_conflict sch t1 t2 then Some (t1, t2) else None | _, _ => None end) as [[t u]|]; [tauto|].
      destruct (f_sub (e_field e1)) as [|x1 l1]; [tauto|]. destruct (f_sub (e_field e2)) as [|x2 l2]; [tauto|].
      destruct (between_sets sch doc n _ _ _ _ _ st) as [[c s]|] eqn:E; [|discriminate]. now rewrite (IH2 _ _ _ _ _ _ _ E).
    - intros m p1 s1 p2 s2 st r. rewrite (sets_step _ _ (S n)), sets_step.
      destruct (fields_and_fragments sch p1 s1) as [m1 n1]. destruct (fields_and_fragments sch p2 s2) as [m2 n2].
      apply grows_andthen; [apply grows_pairs; intros; apply IH1|].
      apply grows_andthen; [apply grows_each; intros; apply IH3|].
      apply grows_andthen; [apply grows_each; intros; apply IH3|].
      apply grows_each. intros a _. apply grows_each. intros b _. apply IH4.
    - intros m1 a m st r. rewrite (fields_step _ _ (S n)), fields_step.
      destruct (frag_get doc a) as [[tc sub]|]; [|tauto]. destruct (fields_and_fragments sch _ sub) as [m2 n2].
      destruct (smem a n2); [tauto|]. apply grows_andthen; [apply grows_pairs; intros; apply IH1|].
      apply grows_until. intros b _. apply IH3.
    - intros a b m st r. rewrite (frags_step _ _ (S n)), frags_step. cbv zeta.
      destruct (String.eqb a b); [tauto|]. destruct (pair_contains a b m (compared st)); [tauto|].
      destruct (frag_get doc a) as [[tc1 s1]|]; [|tauto]. destruct (frag_get doc b) as [[tc2 s2]|]; [|tauto].
      destruct (fields_and_fragments sch _ s1) as [m1 n1]. destruct (fields_and_fragments sch _ s2) as [m2 n2].
      apply grows_andthen; [apply grows_pairs; intros; apply IH1|].
      apply grows_andthen; apply grows_each; intros; apply IH4.
  Qed.
  Lemma within_fragments_grows : forall n m1 names, grows (within_fragments sch doc n m1 names) (within_fragments sch doc (S n) m1 names).
  Proof.
    intros n m1. destruct (fuel_step n) as (_ & _ & H3 & H4). induction names as [|a names IH]; intros st r; [tauto|]. cbn [within_fragments].
    apply grows_andthen; [apply H3|]. apply grows_andthen; [|exact IH]. apply grows_each. intros. apply H4.
  Qed.
  Lemma validate_step : forall n c, validate sch doc n = Some c -> validate sch doc (S n) = Some c.
  Proof.
    intros n c. unfold validate. destruct (each (within_set sch doc n) _ _) as [[l s]|] eqn:E; [|discriminate].
    assert (G : forall x, grows (within_set sch doc n x) (within_set sch doc (S n) x)).
    { intros x st r. unfold within_set. destruct (fields_and_fragments sch (fst x) (snd x)) as [m1 n1].
      apply grows_andthen; [|apply within_fragments_grows].
      apply grows_each. intros [[k e1] e2] _. apply fuel_step. }
    now rewrite (grows_each _ _ _ _ (fun x _ => G x) _ _ E).
  Qed.
  Lemma validate_more : forall n n' c, n <= n' -> validate sch doc n = Some c -> validate sch doc n' = Some c.
  Proof. intros n n' c L H. induction L; [exact H|now apply validate_step]. Qed.

  (** * Ending *)
  Definition ends (k : nat -> state -> outcome) : Prop := exists n, forall fuel st, n <= fuel -> k fuel st <> None.
  Lemma ends_now : forall k, (forall fuel st, k fuel st <> None) -> ends k.
  Proof. intros k H. exists 0. intros fuel st _. apply H. Qed.
  Lemma ends_each : forall A (k : nat -> A -> state -> outcome) l, (forall x, In x l -> ends (fun n => k n x)) -> ends (fun n => each (k n) l).
  Proof.
    intros A k. induction l as [|x l IH]; intros H; [apply ends_now; discriminate|].
    destruct (H x (or_introl eq_refl)) as [n Hn]. destruct (IH (fun y I => H y (or_intror I))) as [n' Hn'].
    exists (n + n'). intros fuel st L. cbn. specialize (Hn fuel st). destruct (k fuel x st) as [[c s]|]; [|exfalso; apply Hn; [lia|reflexivity]].
    specialize (Hn' fuel s). destruct (each (k fuel) l s) as [[c' s']|]; [discriminate|]. exfalso. apply Hn'; [lia|reflexivity].
  Qed.
  Lemma ends_andthen : forall a b, ends a -> ends b -> ends (fun n => andthen (a n) (b n)).
  Proof.
    intros a b [n Hn] [n' Hn']. exists (n + n'). intros fuel st L. unfold andthen.
    specialize (Hn fuel st). destruct (a fuel st) as [[c s]|]; [|exfalso; apply Hn; [lia|reflexivity]].
    specialize (Hn' fuel s). destruct (b fuel s) as [[c' s']|]; [discriminate|]. exfalso. apply Hn'; [lia|reflexivity].
  Qed.
  Lemma ends_until : forall (k : nat -> string -> state -> outcome) l, (forall x, In x l -> ends (fun n => k n x)) -> ends (fun n => until (k n) l).
  Proof.
    intros k. induction l as [|x l IH]; intros H; [apply ends_now; discriminate|].
    destruct (ends_andthen _ _ (H x (or_introl eq_refl)) (IH (fun y I => H y (or_intror I)))) as [n Hn].
    exists n. intros fuel st L. cbn. destruct (smem x (visited st)); [discriminate|]. now apply Hn.
  Qed.
  (** the step may be taken where there is fuel *)
  Lemma ends_step : forall (k k' : nat -> state -> outcome), (forall n st, k (S n) st = k' n st) -> ends k' -> ends k.
  Proof.
    intros k k' E [n Hn]. exists (S n). intros [|fuel] st L; [lia|]. rewrite E. apply Hn. lia.
  Qed.

  Lemma frag_get_in : forall n tc set, frag_get doc n = Some (tc, set) -> In (Frag n tc set) doc.
  Proof.
    intros n tc set. unfold frag_get.
    assert (G : forall l found, frag_find n l found = Some (tc, set) -> In (Frag n tc set) l \/ found = Some (tc, set)).
    { induction l as [|d l IH]; intros found H; [now right|]. destruct d as [k tc' set'|r set']; cbn in *.
      - destruct (IH _ H) as [I|E]; [now left; right|]. destruct (String.eqb_spec k n) as [->|]; [|now right].
        left. left. congruence.
      - destruct (IH _ H) as [I|E]; [now left; right|now right]. }
    intros H. destruct (G _ _ H) as [I|E]; [exact I|discriminate].
  Qed.

  Inductive reach (set : list nsel) : field -> Prop :=
  | reach_field : forall al n args ds sub, In (NField al n args ds sub) set -> reach set (mkfield al n args sub)
  | reach_inline : forall tc ds sub f, In (NInline tc ds sub) set -> reach sub f -> reach set f
  | reach_spread : forall k ds tc sub f, In (NSpread k ds) set -> frag_get doc k = Some (tc, sub) -> reach sub f -> reach set f.
  Definition below (s' s : list nsel) : Prop := exists f, reach s f /\ f_sub f = s'.
  Lemma direct_reach : forall p set e, direct sch p set e -> reach set (e_field e).
  Proof.
    intros p set e D. induction D as [p set al n args ds sub I|p set tc ds sub e I D IH].
    - exact (reach_field _ _ _ _ _ _ I).
    - exact (reach_inline _ _ _ _ _ I IH).
  Qed.
  Lemma spread_reach : forall a set, spreads a set -> forall tc sub f, frag_get doc a = Some (tc, sub) -> reach sub f -> reach set f.
  Proof.
    intros a set S. induction S as [set ds I|set tc' ds sub' I S IH]; intros tc sub f G R.
    - exact (reach_spread _ _ _ _ _ _ I G R).
    - exact (reach_inline _ _ _ _ _ I (IH _ _ _ G R)).
  Qed.
  Lemma reach_in : forall set f, reach set f -> exists x, In x set /\ reach [x] f.
  Proof.
    intros set f R. inversion R as [al n args ds sub I|tc ds sub f' I R'|k ds tc sub f' I G R']; subst.
    - exists (NField al n args ds sub). split; [exact I|]. apply (reach_field _ _ _ _ ds). now left.
    - exists (NInline tc ds sub). split; [exact I|]. apply (reach_inline _ tc ds sub); [now left|exact R'].
    - exists (NSpread k ds). split; [exact I|]. apply (reach_spread _ k ds tc sub); [now left|exact G|exact R'].
  Qed.
  Lemma spreads_mentions : forall k set, spreads k set -> mentions k set.
  Proof.
    intros k set S. induction S as [set ds I|set tc ds sub I S IH]; [exact (mentions_here _ _ _ I)|exact (mentions_inline _ _ _ _ _ I IH)].
  Qed.
  Lemma mentions_in : forall k x set, In x set -> mentions k [x] -> mentions k set.
  Proof.
    intros k x set I M. inversion M as [ds J|al n args ds sub J M'|tc ds sub J M']; subst; destruct J as [->|[]].
    - exact (mentions_here _ _ _ I).
    - exact (mentions_field _ _ _ _ _ _ _ I M').
    - exact (mentions_inline _ _ _ _ _ I M').
  Qed.

  Variable rank : string -> nat.
  Hypothesis Hrank : forall n tc set k, In (Frag n tc set) doc -> mentions k set -> rank k < rank n.

  Lemma below_acc : forall r set, (forall k, mentions k set -> rank k < r) -> Acc below set.
  Proof.
    induction r as [|r IHr]; intros set0 H0.
    - assert (G : forall x, (forall k, mentions k [x] -> rank k < 0) -> forall f, reach [x] f -> Acc below (f_sub f)).
      { induction x as [al n args ds sub IH|n ds|tc ds sub IH] using nsel_ind'; intros H f R.
        - inversion R as [al' n' args' ds' sub' I|? ? ? ? I|? ? ? ? ? I]; subst; destruct I as [I|[]]; try discriminate.
          injection I as <- <- <- <- <-. cbn. constructor. intros y (g & Rg & <-). apply reach_in in Rg. destruct Rg as (x & I & Rx).
          rewrite Forall_forall in IH. apply (IH x I); [|exact Rx]. intros k M. apply H.
          apply (mentions_field _ _ al n args ds sub); [now left|]. exact (mentions_in _ _ _ I M).
        - exfalso. assert (X : rank n < 0) by (apply H; apply (mentions_here _ _ ds); now left). lia.
        - inversion R as [al' n' args' ds' sub' I|? ? ? ? I R'|? ? ? ? ? I]; subst; destruct I as [I|[]]; try discriminate.
          injection I as <- <- <-. apply reach_in in R'. destruct R' as (x & I & Rx).
          rewrite Forall_forall in IH. apply (IH x I); [|exact Rx]. intros k M. apply H.
          apply (mentions_inline _ _ tc ds sub); [now left|]. exact (mentions_in _ _ _ I M). }
      constructor. intros y (f & R & <-). apply reach_in in R. destruct R as (x & I & R).
      apply (G x); [|exact R]. intros k M. apply H0. exact (mentions_in _ _ _ I M).
    - assert (G : forall x, (forall k, mentions k [x] -> rank k < S r) -> forall f, reach [x] f -> Acc below (f_sub f)).
      { induction x as [al n args ds sub IH|n ds|tc ds sub IH] using nsel_ind'; intros H f R.
        - inversion R as [al' n' args' ds' sub' I|? ? ? ? I|? ? ? ? ? I]; subst; destruct I as [I|[]]; try discriminate.
          injection I as <- <- <- <- <-. cbn. constructor. intros y (g & Rg & <-). apply reach_in in Rg. destruct Rg as (x & I & Rx).
          rewrite Forall_forall in IH. apply (IH x I); [|exact Rx]. intros k M. apply H.
          apply (mentions_field _ _ al n args ds sub); [now left|]. exact (mentions_in _ _ _ I M).
        - inversion R as [? ? ? ? ? I|? ? ? ? I|k ds' tc sub f' I Gk R']; subst; destruct I as [I|[]]; try discriminate.
          injection I as <- <-. assert (X : rank n < S r) by (apply H; apply (mentions_here _ _ ds); now left).
          apply frag_get_in in Gk. assert (A : Acc below sub).
          { apply IHr. intros j M. specialize (Hrank _ _ _ _ Gk M). lia. }
          apply (Acc_inv A). now exists f.
        - inversion R as [al' n' args' ds' sub' I|? ? ? ? I R'|? ? ? ? ? I]; subst; destruct I as [I|[]]; try discriminate.
          injection I as <- <- <-. apply reach_in in R'. destruct R' as (x & I & Rx).
          rewrite Forall_forall in IH. apply (IH x I); [|exact Rx]. intros k M. apply H.
          apply (mentions_inline _ _ tc ds sub); [now left|]. exact (mentions_in _ _ _ I M). }
      constructor. intros y (f & R & <-). apply reach_in in R. destruct R as (x & I & R).
      apply (G x); [|exact R]. intros k M. apply H0. exact (mentions_in _ _ _ I M).
  Qed.
  Lemma bounded : forall set, exists r, forall k, mentions k set -> rank k < r.
  Proof.
    assert (L : forall set, Forall (fun x => exists r, forall k, mentions k [x] -> rank k < r) set -> exists r, forall k, mentions k set -> rank k < r).
    { intros set H. induction H as [|x set [r1 Hx] _ [r2 IH]]; [exists 0; intros k M; inversion M; contradiction|].
      exists (r1 + r2). intros k M.
      assert (S : mentions k [x] \/ mentions k set).
      { inversion M as [ds I|al n args ds sub I M'|tc ds sub I M']; subst; destruct I as [->|I].
        - left. apply (mentions_here _ _ ds). now left.
        - right. exact (mentions_here _ _ _ I).
        - left. apply (mentions_field _ _ al n args ds sub); [now left|exact M'].
        - right. exact (mentions_field _ _ _ _ _ _ _ I M').
        - left. apply (mentions_inline _ _ tc ds sub); [now left|exact M'].
        - right. exact (mentions_inline _ _ _ _ _ I M'). }
      destruct S as [S|S]; [apply Hx in S|apply IH in S]; lia. }
    intros set. apply L. apply Forall_forall. intros x _. revert x.
    induction x as [al n args ds sub IH|n ds|tc ds sub IH] using nsel_ind'.
    - apply L in IH. destruct IH as [r H]. exists r. intros k M. inversion M as [? I|? ? ? ? ? I M'|? ? ? I]; subst; destruct I as [I|[]]; try discriminate.
      injection I as <- <- <- <- <-. now apply H.
    - exists (S (rank n)). intros k M. inversion M as [? I|? ? ? ? ? I|? ? ? I]; subst; destruct I as [I|[]]; try discriminate.
      injection I as <- <-. lia.
    - apply L in IH. destruct IH as [r H]. exists r. intros k M. inversion M as [? I|? ? ? ? ? I|? ? ? I M']; subst; destruct I as [I|[]]; try discriminate.
      injection I as <- <- <-. now apply H.
  Qed.

  (** The fields of a selection set, once compared with whatever, come to an end *)
  Definition settled (e : entry) : Prop := forall name e' m,
    ends (fun n => find_conflict sch doc n name e e' m) /\ ends (fun n => find_conflict sch doc n name e' e m).
  Definition settled_map (m : field_map) : Prop := forall k e, held m k e -> settled e.
  Definition settled_set (s : list nsel) : Prop := forall e, reach s (e_field e) -> settled e.
  Lemma set_map : forall p s m n, fields_and_fragments sch p s = (m, n) -> settled_set s -> settled_map m.
  Proof.
    intros p s m n F S k e H. destruct (fields_ok _ _ _ _ _ F) as (A & _). apply A in H. apply S. exact (direct_reach _ _ _ (proj2 H)).
  Qed.
  Lemma set_spread : forall s a tc sub, settled_set s -> spreads a s -> frag_get doc a = Some (tc, sub) -> settled_set sub.
  Proof. intros s a tc sub H S G e R. apply H. exact (spread_reach _ _ S _ _ _ G R). Qed.
  Lemma ends_pairs : forall m m1 m2, NoDup (map fst m1) -> settled_map m1 \/ settled_map m2 -> ends (fun n => each_pair sch doc n m (pairs m1 m2)).
  Proof.
    intros m m1 m2 U H. unfold each_pair.
    apply (ends_each _ (fun n p => let '(k, e1, e2) := p in find_conflict sch doc n k e1 e2 m)). intros [[k e1] e2] I.
    apply pairs_ok in I; [|exact U]. destruct I as [I1 I2]. destruct H as [H|H]; [apply (H _ _ I1)|apply (H _ _ I2)].
  Qed.
  Definition settled_frag (a : string) : Prop := forall tc sub, frag_get doc a = Some (tc, sub) -> settled_set sub.
  Lemma frag_below : forall a tc sub m n b, frag_get doc a = Some (tc, sub) -> fields_and_fragments sch (type_by_name sch tc) sub = (m, n) ->
    In b n -> rank b < rank a /\ spreads b sub.
  Proof.
    intros a tc sub m n b G F I. destruct (fields_ok _ _ _ _ _ F) as (_ & A & _). apply A in I. split; [|exact I].
    apply frag_get_in in G. exact (Hrank _ _ _ _ G (spreads_mentions _ _ I)).
  Qed.
  Lemma ends_fields : forall r a, rank a < r -> forall m m1, NoDup (map fst m1) -> settled_map m1 \/ settled_frag a ->
    ends (fun n => fields_fragment sch doc n m1 a m).
  Proof.
    induction r as [|r IH]; intros a L m m1 U H; [lia|]. eapply ends_step; [intros; apply fields_step|].
    destruct (frag_get doc a) as [[tc sub]|] eqn:G; [|apply ends_now; discriminate].
    destruct (fields_and_fragments sch (type_by_name sch tc) sub) as [m2 n2] eqn:F.
    destruct (smem a n2); [apply ends_now; discriminate|].
    apply ends_andthen; [apply ends_pairs; [exact U|destruct H as [H|H]; [now left|right; exact (set_map _ _ _ _ F (H _ _ G))]]|].
    apply (ends_until (fun n b => fields_fragment sch doc n m1 b m)). intros b I.
    destruct (frag_below _ _ _ _ _ _ G F I) as [Lb Sb]. apply IH; [lia|exact U|].
    destruct H as [H|H]; [now left|right]. intros tc' sub' G'. exact (set_spread _ _ _ _ (H _ _ G) Sb G').
  Qed.
  Lemma ends_frags : forall r a b, rank a + rank b < r -> forall m, settled_frag a \/ settled_frag b ->
    ends (fun n => fragment_fragment sch doc n a b m).
  Proof.
    induction r as [|r IH]; intros a b L m H; [lia|].
    assert (E : ends (fun n st =>
      match frag_get doc a, frag_get doc b with
      | Some (tc1, s1), Some (tc2, s2) =>
          let '(m1, n1) := fields_and_fragments sch (type_by_name sch tc1) s1 in
          let '(m2, n2) := fields_and_fragments sch (type_by_name sch tc2) s2 in
          andthen (each_pair sch doc n m (pairs m1 m2))
            (andthen (each (fun b' => fragment_fragment sch doc n a b' m) n2)
              (each (fun a' => fragment_fragment sch doc n a' b m) n1)) st
      | _, _ => Some ([], st)
      end)).
    { destruct (frag_get doc a) as [[tc1 s1]|] eqn:Ga; [|apply ends_now; discriminate].
      destruct (frag_get doc b) as [[tc2 s2]|] eqn:Gb; [|apply ends_now; discriminate].
      destruct (fields_and_fragments sch (type_by_name sch tc1) s1) as [m1 n1] eqn:F1.
      destruct (fields_and_fragments sch (type_by_name sch tc2) s2) as [m2 n2] eqn:F2.
      destruct (fields_ok _ _ _ _ _ F1) as (_ & _ & U1 & _).
      apply ends_andthen.
      { apply ends_pairs; [exact U1|]. destruct H as [H|H]; [left; exact (set_map _ _ _ _ F1 (H _ _ Ga))|right; exact (set_map _ _ _ _ F2 (H _ _ Gb))]. }
      apply ends_andthen.
      - apply (ends_each _ (fun n b' => fragment_fragment sch doc n a b' m)). intros b' I. destruct (frag_below _ _ _ _ _ _ Gb F2 I) as [Lb Sb].
        apply IH; [lia|]. destruct H as [H|H]; [now left|right]. intros tc' sub' G'. exact (set_spread _ _ _ _ (H _ _ Gb) Sb G').
      - apply (ends_each _ (fun n a' => fragment_fragment sch doc n a' b m)). intros a' I. destruct (frag_below _ _ _ _ _ _ Ga F1 I) as [La Sa].
        apply IH; [lia|]. destruct H as [H|H]; [left|now right]. intros tc' sub' G'. exact (set_spread _ _ _ _ (H _ _ Ga) Sa G'). }
    destruct E as [n Hn]. exists (S n). intros [|fuel] st Lf; [lia|]. rewrite frags_step. cbv zeta.
    destruct (String.eqb a b); [discriminate|]. destruct (pair_contains a b m (compared st)); [discriminate|]. apply Hn. lia.
  Qed.
  Lemma ends_find : forall name e1 e2 m,
    (forall m' p1 p2, ends (fun n => between_sets sch doc n m' p1 (f_sub (e_field e1)) p2 (f_sub (e_field e2)))) ->
    ends (fun n => find_conflict sch doc n name e1 e2 m).
  Proof.
    intros name e1 e2 m H. eapply ends_step; [intros; apply find_step|]. cbv zeta.
    destruct (H (exclusive m (e_parent e1) (e_parent e2)) (type_of_def sch (e_def e1)) (type_of_def sch (e_def e2))) as [n Hn].
    exists n. intros fuel st L.
    destruct (negb _ && negb _); [discriminate|]. destruct (negb _ && negb _); [discriminate|].
    destruct (match e_def e1, e_def e2 with Some t1, Some t2 => if type_conflict sch t1 t2 then Some (t1, t2) else None | _, _ => None end) as [[t u]|]; [discriminate|].
    specialize (Hn fuel st L).
    destruct (f_sub (e_field e1)) as [|x1 l1]; [discriminate|]. destruct (f_sub (e_field e2)) as [|x2 l2]; [discriminate|].
    destruct (between_sets _ _ _ _ _ _ _ _ _) as [[[|c0 c] s]|]; try discriminate. contradiction.
  Qed.
  Lemma ends_sets : forall m p1 s1 p2 s2, settled_set s1 \/ settled_set s2 -> ends (fun n => between_sets sch doc n m p1 s1 p2 s2).
  Proof.
    intros m p1 s1 p2 s2 H. eapply ends_step; [intros; apply sets_step|].
    destruct (fields_and_fragments sch p1 s1) as [m1 n1] eqn:F1. destruct (fields_and_fragments sch p2 s2) as [m2 n2] eqn:F2.
    destruct (fields_ok _ _ _ _ _ F1) as (_ & A1 & U1 & _). destruct (fields_ok _ _ _ _ _ F2) as (_ & A2 & U2 & _).
    apply ends_andthen.
    { apply ends_pairs; [exact U1|]. destruct H as [H|H]; [left; exact (set_map _ _ _ _ F1 H)|right; exact (set_map _ _ _ _ F2 H)]. }
    apply ends_andthen.
    { apply (ends_each _ (fun n b => fields_fragment sch doc n m1 b m)). intros b I. apply A2 in I. apply (ends_fields (S (rank b))); [lia|exact U1|].
      destruct H as [H|H]; [left; exact (set_map _ _ _ _ F1 H)|right]. intros tc sub G. exact (set_spread _ _ _ _ H I G). }
    apply ends_andthen.
    { apply (ends_each _ (fun n b => fields_fragment sch doc n m2 b m)). intros a I. apply A1 in I. apply (ends_fields (S (rank a))); [lia|exact U2|].
      destruct H as [H|H]; [right|left; exact (set_map _ _ _ _ F2 H)]. intros tc sub G. exact (set_spread _ _ _ _ H I G). }
    apply (ends_each _ (fun n a => each (fun b => fragment_fragment sch doc n a b m) n2)). intros a I. apply A1 in I.
    apply (ends_each _ (fun n b => fragment_fragment sch doc n a b m)). intros b J. apply A2 in J.
    apply (ends_frags (S (rank a + rank b))); [lia|]. destruct H as [H|H]; [left|right]; intros tc sub G; [exact (set_spread _ _ _ _ H I G)|exact (set_spread _ _ _ _ H J G)].
  Qed.
  Lemma acc_settled : forall s, Acc below s -> settled_set s.
  Proof.
    intros s A. induction A as [s _ IH]. intros e R name e' m.
    assert (K : settled_set (f_sub (e_field e))) by (apply IH; now exists (e_field e)).
    split; apply ends_find; intros m' p1 p2; apply ends_sets; tauto.
  Qed.
  Lemma all_settled : forall s, settled_set s.
  Proof. intros s. apply acc_settled. destruct (bounded s) as [r H]. exact (below_acc r s H). Qed.

  Lemma ends_within : forall m1 names, NoDup (map fst m1) -> settled_map m1 -> ends (fun n => within_fragments sch doc n m1 names).
  Proof.
    intros m1 names U H. induction names as [|a names IH]; [apply ends_now; discriminate|]. cbn [within_fragments].
    apply ends_andthen; [apply (ends_fields (S (rank a))); [lia|exact U|now left]|].
    apply ends_andthen; [|exact IH].
    apply (ends_each _ (fun n b => fragment_fragment sch doc n a b false)). intros b _. apply (ends_frags (S (rank a + rank b))); [lia|].
    left. intros tc sub _. apply all_settled.
  Qed.
  Lemma ends_set : forall x, ends (fun n => within_set sch doc n x).
  Proof.
    intros x. unfold within_set. destruct (fields_and_fragments sch (fst x) (snd x)) as [m1 n1] eqn:F.
    destruct (fields_ok _ _ _ _ _ F) as (_ & _ & U & _). pose proof (set_map _ _ _ _ F (all_settled _)) as H.
    assert (E : ends (fun n => andthen (each (fun p => let '(k, e1, e2) := p in find_conflict sch doc n k e1 e2 false) (pairs_within m1)) (within_fragments sch doc n m1 n1))).
    { apply ends_andthen; [|now apply ends_within].
      apply (ends_each _ (fun n p => let '(k, e1, e2) := p in find_conflict sch doc n k e1 e2 false)). intros [[k e1] e2] I.
      apply within_in in I; [|exact U]. apply (H _ _ (proj1 I)). }
    destruct E as [n Hn]. exists n. intros fuel st L. apply Hn. exact L.
  Qed.
End Fuel.

Lemma validate_ends : forall sch doc, acyclic doc -> exists n c, forall fuel, n <= fuel -> validate sch doc fuel = Some c.
Proof.
  intros sch doc [rank H].
  destruct (ends_each _ (fun n x => within_set sch doc n x) (flat_map (sets_of sch) doc) (fun x _ => ends_set sch doc rank H x)) as [n Hn].
  specialize (Hn n (mkstate [] []) (le_n n)). cbn beta in Hn.
  destruct (validate sch doc n) as [c|] eqn:V.
  - exists n, c. intros fuel L. exact (validate_more sch doc n fuel c L V).
  - exfalso. apply Hn. unfold validate in V.
    change (fun x => within_set sch doc n x) with (within_set sch doc n).
    destruct (each (within_set sch doc n) (flat_map (sets_of sch) doc) (mkstate [] [])) as [[l s]|]; [discriminate|reflexivity].
Qed.
