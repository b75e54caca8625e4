(* Invariants of the pool. *)
From Coq Require Import String List Bool Arith Lia Permutation.
From Verif Require Import PoolModel PoolSpec.
Import ListNotations.
Open Scope string_scope.
Open Scope list_scope.

Lemma get_del A id i (l : list (string * A)) : get i (del id l) = if String.eqb id i then None else get i l.
Proof.
  unfold del. induction l as [|[k x] l IH]; cbn; [destruct (String.eqb id i); reflexivity|].
  destruct (String.eqb_spec k id) as [E|E]; cbn; rewrite IH.
  - subst k. destruct (String.eqb id i); reflexivity.
  - destruct (String.eqb_spec k i) as [F|F]; [|reflexivity]. subst k. destruct (String.eqb_spec id i); [congruence|reflexivity].
Qed.
Lemma get_put A id x i (l : list (string * A)) : get i (put id x l) = if String.eqb id i then Some x else get i l.
Proof. unfold put. cbn [get]. rewrite get_del. destruct (String.eqb id i); reflexivity. Qed.
Lemma nget_ndel A n m (l : list (nat * A)) : nget m (ndel n l) = if Nat.eqb n m then None else nget m l.
Proof.
  unfold ndel. induction l as [|[k x] l IH]; cbn; [destruct (Nat.eqb n m); reflexivity|].
  destruct (Nat.eqb_spec k n) as [E|E]; cbn; rewrite IH.
  - subst k. destruct (Nat.eqb n m); reflexivity.
  - destruct (Nat.eqb_spec k m) as [F|F]; [|reflexivity]. subst k. destruct (Nat.eqb_spec n m); [congruence|reflexivity].
Qed.
Lemma nget_in A n (x : A) l : nget n l = Some x -> In (n, x) l.
Proof.
  induction l as [|[k y] l IH]; cbn; [discriminate|]. destruct (Nat.eqb_spec k n) as [E|E]; [intros [= ->]; subst k; auto|auto].
Qed.
Lemma nget_none A n (l : list (nat * A)) : nget n l = None <-> ~ In n (map fst l).
Proof.
  induction l as [|[k x] l IH]; cbn; [tauto|].
  destruct (Nat.eqb_spec k n) as [E|E]; [split; [discriminate|intros H; destruct H; auto]|].
  rewrite IH. split; [intros H [K|K]; auto|auto].
Qed.
Lemma in_nget A n (x : A) l : NoDup (map fst l) -> In (n, x) l -> nget n l = Some x.
Proof.
  induction l as [|[k y] l IH]; cbn; intros D H; [destruct H|]. inversion D as [|? ? N D']; subst.
  destruct (Nat.eqb_spec k n) as [E|E].
  - subst k. destruct H as [[= ->]|H]; [reflexivity|]. destruct N. apply (in_map fst) in H. exact H.
  - destruct H as [[= K _]|H]; [congruence|auto].
Qed.
Lemma ndel_nodup A n (l : list (nat * A)) : NoDup (map fst l) -> NoDup (map fst (ndel n l)).
Proof.
  induction l as [|[k x] l IH]; cbn; intros D; [exact D|]. inversion D as [|? ? N D']; subst.
  destruct (negb (Nat.eqb k n)); cbn; [|auto]. constructor; [|auto].
  intros H. apply N. apply in_map_iff in H as [e [E H]]. apply filter_In in H as [H _]. rewrite <- E. apply in_map. exact H.
Qed.
Lemma mem_spec n l : mem n l = true <-> In n l.
Proof. unfold mem. rewrite existsb_exists. split; [intros (x & H & E); apply Nat.eqb_eq in E; congruence|intros H; exists n; rewrite Nat.eqb_refl; auto]. Qed.
Lemma present l p w : In w (filter (fun v => negb (mem v (gone p))) l) <-> In w l /\ ~ In w (gone p).
Proof. rewrite filter_In, negb_true_iff. split; intros [H K]; (split; [exact H|]). { intros C. apply mem_spec in C. congruence. } destruct (mem w (gone p)) eqn:E; [apply mem_spec in E; contradiction|reflexivity]. Qed.

Record inv (ids : list string) (p : pool) : Prop := mkinv {
  i_calls : next_call p = length ids;
  i_attempt : forall g id, nget g (attempts p) = Some id <-> exists ws, get id (entries p) = Some (Connecting g ws);
  i_gens : NoDup (map fst (attempts p)) /\ forall g, nget g (attempts p) <> None -> g < next_gen p;
  i_ready : forall id x, get id (entries p) = Some (Initialized x) -> exists b, nget x (executors p) = Some (id, b);
  i_execs : NoDup (map fst (executors p)) /\ forall x, nget x (executors p) <> None -> x < next_gen p /\ nget x (attempts p) = None;
  i_wait : forall id g ws, get id (entries p) = Some (Connecting g ws) -> NoDup ws /\ forall w, In w ws -> nth_error ids w = Some id /\ nget w (answers p) = None;
  i_all : forall w id, nth_error ids w = Some id -> nget w (answers p) = None -> ~ In w (gone p) -> exists g ws, get id (entries p) = Some (Connecting g ws) /\ In w ws;
  i_answers : NoDup (map fst (answers p));
  i_answer : forall w a, nget w (answers p) = Some a -> ~ In w (gone p) /\ exists id, nth_error ids w = Some id /\ forall x, a = Got x -> exists b, nget x (executors p) = Some (id, b);
  i_gone : forall w, In w (gone p) -> w < length ids }.

Definition new (a : action) : list string := match a with Call id => [id] | _ => [] end.
Lemma asked_snoc tr a : asked (tr ++ [a]) = asked tr ++ new a.
Proof. induction tr as [|b tr IH]; [destruct a; reflexivity|]. destruct b; cbn [app asked]; rewrite IH; reflexivity. Qed.
Lemma steps_snoc p l a : steps p (l ++ [a]) = match steps p l with Some q => step q a | None => None end.
Proof. revert p. induction l as [|b l IH]; intros p; cbn [app steps]; [destruct (step p a); reflexivity|]. destruct (step p b); [apply IH|reflexivity]. Qed.
Lemma nth_snoc (ids : list string) id w j : nth_error (ids ++ [id]) w = Some j <-> nth_error ids w = Some j \/ (w = length ids /\ j = id).
Proof.
  destruct (Nat.lt_ge_cases w (length ids)) as [L|L].
  - rewrite (nth_error_app1 _ _ L). split; [auto|]. intros [H|[-> _]]; [exact H|lia].
  - rewrite (nth_error_app2 _ _ L). split.
    + intros H. right. destruct (w - length ids) as [|n] eqn:E; [injection H as ->; split; [lia|reflexivity]|]. destruct n; discriminate.
    + intros [H|[-> ->]]; [|rewrite Nat.sub_diag; reflexivity]. assert (K : nth_error ids w <> None) by congruence. apply nth_error_Some in K. lia.
Qed.
Lemma nth_less (ids : list string) w j : nth_error ids w = Some j -> w < length ids.
Proof. intros H. apply nth_error_Some. congruence. Qed.

Lemma nget_notify ws a p w : nget w (notify ws a p) = if mem w (filter (fun v => negb (mem v (gone p))) ws) then Some a else nget w (answers p).
Proof.
  unfold notify. induction (filter (fun v => negb (mem v (gone p))) ws) as [|v l IH]; [reflexivity|]. cbn.
  rewrite (Nat.eqb_sym w v). destruct (Nat.eqb v w); [reflexivity|]. exact IH.
Qed.
Lemma notify_nodup ws a p : NoDup ws -> NoDup (map fst (answers p)) -> (forall w, In w ws -> nget w (answers p) = None) -> NoDup (map fst (notify ws a p)).
Proof.
  unfold notify. intros D A N. rewrite map_app, map_map. cbn. rewrite map_id.
  induction D as [|w ws F D IH]; [exact A|]. cbn. destruct (negb (mem w (gone p))); [|apply IH; intros v K; apply N; right; exact K].
  cbn. constructor; [|apply IH; intros v K; apply N; right; exact K]. intros K. apply in_app_iff in K as [K|K].
  - apply filter_In in K as [K _]. contradiction.
  - specialize (N w (or_introl eq_refl)). apply nget_none in N. contradiction.
Qed.

(* The end of an attempt *)
Lemma ended ids p g id ws e' ex' a r : inv ids p -> get id (entries p) = Some (Connecting g ws) ->
  (forall j, get j e' = if String.eqb id j then r else get j (entries p)) ->
  (r = None /\ ex' = executors p /\ (forall x, a <> Got x) \/ r = Some (Initialized g) /\ ex' = (g, (id, true)) :: executors p /\ a = Got g) ->
  inv ids (mkpool e' (next_gen p) (ndel g (attempts p)) ex' (next_call p) (notify ws a p) (gone p)).
Proof.
  intros [C A [G1 G2] R [E1 E2] W L N Q O] H X Y.
  assert (G : nget g (attempts p) = Some id) by (apply A; eauto).
  assert (Gx : nget g (executors p) = None).
  { destruct (nget g (executors p)) eqn:F; [|reflexivity]. destruct (E2 g) as [_ K]; [congruence|]. congruence. }
  assert (M : forall x v, nget x (executors p) = Some v -> nget x ex' = Some v).
  { intros x v K. destruct Y as [(_ & -> & _)|(_ & -> & _)]; [exact K|]. cbn. destruct (Nat.eqb_spec g x); [congruence|exact K]. }
  apply mkinv; cbn [entries next_gen attempts executors next_call answers gone].
  - exact C.
  - intros h j. rewrite nget_ndel. split.
    + destruct (Nat.eqb_spec g h) as [K|K]; [discriminate|]. intros B. apply A in B as [vs B]. exists vs. rewrite X.
      destruct (String.eqb_spec id j); [congruence|exact B].
    + intros [vs B]. rewrite X in B. destruct (String.eqb_spec id j) as [K|K].
      * destruct Y as [(-> & _)|(-> & _)]; discriminate.
      * assert (Z : nget h (attempts p) = Some j) by (apply A; eauto). destruct (Nat.eqb_spec g h); [congruence|exact Z].
  - split; [apply ndel_nodup; exact G1|]. intros h. rewrite nget_ndel. destruct (Nat.eqb g h); [easy|apply G2].
  - intros j x B. rewrite X in B. destruct (String.eqb_spec id j) as [K|K].
    + subst j. destruct Y as [(-> & _)|(-> & -> & _)]; [discriminate|]. injection B as <-. exists true. cbn. rewrite Nat.eqb_refl. reflexivity.
    + destruct (R j x B) as [b Z]. exists b. apply M. exact Z.
  - split.
    + destruct Y as [(_ & -> & _)|(_ & -> & _)]; [exact E1|]. cbn. constructor; [apply nget_none; exact Gx|exact E1].
    + intros x B. rewrite nget_ndel. destruct (Nat.eqb_spec g x) as [K|K].
      * split; [|reflexivity]. subst x. apply G2. congruence.
      * apply E2. destruct Y as [(_ & -> & _)|(_ & -> & _)]; [exact B|]. cbn in B. destruct (Nat.eqb_spec g x); [congruence|exact B].
  - intros j h vs B. rewrite X in B. destruct (String.eqb_spec id j) as [K|K].
    + destruct Y as [(-> & _)|(-> & _)]; discriminate.
    + destruct (W j h vs B) as [D Z]. split; [exact D|]. intros w I. destruct (Z w I) as [Z1 Z2]. split; [exact Z1|].
      rewrite nget_notify. destruct (mem w _) eqn:F; [|exact Z2]. apply mem_spec, present in F as [F _].
      destruct (W id g ws H) as [_ V]. destruct (V w F) as [V1 _]. congruence.
  - intros w j I. rewrite nget_notify. destruct (mem w _) eqn:F; [discriminate|]. intros I2 I3. destruct (L w j I I2 I3) as (h & vs & B & B2).
    exists h, vs. rewrite X. destruct (String.eqb_spec id j) as [K|K]; [|auto].
    subst j. rewrite H in B. injection B as <- <-. assert (T : In w (filter (fun v => negb (mem v (gone p))) ws)) by (apply present; auto). apply mem_spec in T. congruence.
  - apply notify_nodup; [apply (W id g ws H)|exact N|]. intros w I. apply (W id g ws H). exact I.
  - intros w b. rewrite nget_notify. destruct (mem w _) eqn:F.
    + intros [= <-]. apply mem_spec, present in F as [F F2]. split; [exact F2|]. exists id. destruct (W id g ws H) as [_ V]. split; [apply V; exact F|].
      intros x ->. destruct Y as [(_ & _ & Y)|(_ & -> & [= <-])]; [destruct (Y x eq_refl)|]. exists true. cbn. rewrite Nat.eqb_refl. reflexivity.
    + intros B. destruct (Q w b B) as [Q1 (j & Q2 & Q3)]. split; [exact Q1|]. exists j. split; [exact Q2|]. intros x K. destruct (Q3 x K) as [c Z]. exists c. apply M. exact Z.
  - exact O.
Qed.

Lemma inv_finish ids p g id a : inv ids p -> nget g (attempts p) = Some id -> (forall x, a <> Got x) -> inv ids (finish g id a p).
Proof.
  intros I G H. pose proof (proj1 (i_attempt ids p I g id) G) as [ws E]. unfold finish, withdraw. rewrite E, Nat.eqb_refl.
  apply (ended ids p g id ws _ _ a None I E); [intros j; apply get_del|]. left. auto.
Qed.
Lemma published ids p g id : inv ids p -> nget g (attempts p) = Some id ->
  exists ws, get id (entries p) = Some (Connecting g ws) /\ publish g id (entries p) = Some (put id (Initialized g) (entries p), ws).
Proof. intros I G. pose proof (proj1 (i_attempt ids p I g id) G) as [ws E]. exists ws. unfold publish. rewrite E, Nat.eqb_refl. auto. Qed.

Lemma inv_begin ids p id : inv ids p -> (get id (entries p) = None \/ exists x, get id (entries p) = Some (Initialized x)) ->
  inv (ids ++ [id]) (mkpool (put id (Connecting (next_gen p) [next_call p]) (entries p)) (S (next_gen p)) ((next_gen p, id) :: attempts p)
                      (executors p) (S (next_call p)) (answers p) (gone p)).
Proof.
  intros [C A [G1 G2] R [E1 E2] W L N Q O] H.
  assert (Fr : nget (next_gen p) (attempts p) = None).
  { destruct (nget (next_gen p) (attempts p)) eqn:F; [|reflexivity]. assert (X : next_gen p < next_gen p) by (apply G2; congruence). lia. }
  assert (Fa : nget (next_call p) (answers p) = None).
  { destruct (nget (next_call p) (answers p)) eqn:F; [|reflexivity]. destruct (Q _ _ F) as [_ (j & K & _)]. apply nth_less in K. lia. }
  apply mkinv; cbn [entries next_gen attempts executors next_call answers gone].
  - rewrite app_length. cbn. lia.
  - intros g j. cbn [nget]. rewrite get_put. destruct (Nat.eqb_spec (next_gen p) g) as [K|K].
    + subst g. split.
      * intros [= <-]. rewrite String.eqb_refl. eauto.
      * intros [ws B]. destruct (String.eqb_spec id j) as [E|E]; [congruence|]. assert (X : nget (next_gen p) (attempts p) = Some j) by (apply A; eauto). congruence.
    + split.
      * intros B. apply A in B as [ws B]. exists ws. destruct (String.eqb_spec id j) as [E|E]; [|exact B]. subst j. destruct H as [H|[x H]]; congruence.
      * intros [ws B]. destruct (String.eqb_spec id j) as [E|E]; [congruence|]. apply A. eauto.
  - split; [cbn; constructor; [apply nget_none; exact Fr|exact G1]|]. intros g. cbn. destruct (Nat.eqb_spec (next_gen p) g) as [K|K]; [intros _; lia|].
    intros B. apply G2 in B. lia.
  - intros j x. rewrite get_put. destruct (String.eqb id j); [discriminate|apply R].
  - split; [exact E1|]. intros x B. destruct (E2 x B) as [K1 K2]. split; [lia|]. cbn. destruct (Nat.eqb_spec (next_gen p) x); [lia|exact K2].
  - intros j g ws. rewrite get_put. destruct (String.eqb_spec id j) as [E|E].
    + intros [= <- <-]. split; [constructor; [easy|constructor]|]. intros w [<-|[]]. split; [|exact Fa]. apply nth_snoc. right. split; [exact C|congruence].
    + intros B. destruct (W j g ws B) as [D Z]. split; [exact D|]. intros w I. destruct (Z w I) as [Z1 Z2]. split; [|exact Z2]. apply nth_snoc. auto.
  - intros w j I I2 I3. rewrite get_put. apply nth_snoc in I as [I|[-> ->]].
    + destruct (L w j I I2 I3) as (g & ws & B & B2). destruct (String.eqb_spec id j) as [E|E]; [|eauto]. subst j. destruct H as [H|[x H]]; congruence.
    + rewrite String.eqb_refl. exists (next_gen p), [next_call p]. split; [reflexivity|]. left. exact C.
  - exact N.
  - intros w a B. destruct (Q w a B) as [Q1 (j & Q2 & Q3)]. split; [exact Q1|]. exists j. split; [apply nth_snoc; auto|exact Q3].
  - intros w B. rewrite app_length. apply O in B. cbn. lia.
Qed.
Lemma inv_call ids p id : inv ids p -> inv (ids ++ [id]) (call id p).
Proof.
  intros I. unfold call. destruct (get id (entries p)) as [[g ws|x]|] eqn:H; [| |apply inv_begin; auto].
  2: destruct (is_open x p) eqn:Op; [|apply inv_begin; eauto].
  all: assert (Fa : nget (next_call p) (answers p) = None) by
    (destruct (nget (next_call p) (answers p)) eqn:F; [|reflexivity]; destruct (i_answer ids p I _ _ F) as [_ (j & K & _)]; apply nth_less in K; rewrite <- (i_calls ids p I) in K; lia).
  all: assert (Fg : ~ In (next_call p) (gone p)) by (intros K; apply (i_gone ids p I) in K; rewrite <- (i_calls ids p I) in K; lia).
  all: destruct I as [C A G R E W L N Q O].
  - assert (Y : forall j h, (exists vs, get j (put id (Connecting g (filter (fun v => negb (mem v (gone p))) ws ++ [next_call p])) (entries p)) = Some (Connecting h vs)) <->
                            (exists vs, get j (entries p) = Some (Connecting h vs))).
    { intros j h. rewrite get_put. destruct (String.eqb_spec id j) as [K|K]; [|reflexivity]. subst j. rewrite H. split; intros [vs [= <- <-]]; eauto. }
    apply mkinv; cbn [entries next_gen attempts executors next_call answers gone]; auto.
    + rewrite app_length. cbn. lia.
    + intros h j. rewrite Y. apply A.
    + intros j x. rewrite get_put. destruct (String.eqb id j); [discriminate|apply R].
    + intros j h vs. rewrite get_put. destruct (String.eqb_spec id j) as [K|K].
      * intros [= <- <-]. subst j. destruct (W id g ws H) as [D Z]. split.
        -- refine (Permutation_NoDup (Permutation_cons_append _ _) _). constructor; [|apply NoDup_filter; exact D].
           intros K. apply filter_In in K as [K _]. apply Z in K as [K _]. apply nth_less in K. lia.
        -- intros w B. apply in_app_iff in B as [B|[<-|[]]].
           ++ apply filter_In in B as [B _]. destruct (Z w B) as [Z1 Z2]. split; [apply nth_snoc; auto|exact Z2].
           ++ split; [apply nth_snoc; auto|exact Fa].
      * intros B. destruct (W j h vs B) as [D Z]. split; [exact D|]. intros w I. destruct (Z w I) as [Z1 Z2]. split; [apply nth_snoc; auto|exact Z2].
    + intros w j I I2 I3. rewrite get_put. apply nth_snoc in I as [I|[-> ->]].
      * destruct (L w j I I2 I3) as (h & vs & B & B2). destruct (String.eqb_spec id j) as [K|K]; [|eauto]. subst j. rewrite H in B. injection B as <- <-.
        exists g, (filter (fun v => negb (mem v (gone p))) ws ++ [next_call p]). split; [reflexivity|]. apply in_app_iff. left. apply present. auto.
      * rewrite String.eqb_refl. exists g, (filter (fun v => negb (mem v (gone p))) ws ++ [next_call p]). split; [reflexivity|]. apply in_app_iff. right. left. exact C.
    + intros w a B. destruct (Q w a B) as [Q1 (j & Q2 & Q3)]. split; [exact Q1|]. exists j. split; [apply nth_snoc; auto|exact Q3].
    + intros w B. rewrite app_length. apply O in B. cbn. lia.
  - apply mkinv; cbn [entries next_gen attempts executors next_call answers gone]; auto.
    + rewrite app_length. cbn. lia.
    + intros j g ws B. destruct (W j g ws B) as [D Z]. split; [exact D|]. intros w I. destruct (Z w I) as [Z1 Z2]. split; [apply nth_snoc; auto|].
      cbn. destruct (Nat.eqb_spec (next_call p) w) as [K|K]; [|exact Z2]. apply nth_less in Z1. lia.
    + intros w j I. cbn. destruct (Nat.eqb_spec (next_call p) w) as [K|K]; [discriminate|]. apply nth_snoc in I as [I|[-> ->]]; [apply L; exact I|lia].
    + cbn. constructor; [apply nget_none; exact Fa|exact N].
    + intros w a. cbn. destruct (Nat.eqb_spec (next_call p) w) as [K|K].
      * intros [= <-]. subst w. split; [exact Fg|]. exists id. split; [apply nth_snoc; auto|]. intros y [= <-]. apply (R id x H).
      * intros B. destruct (Q w a B) as [Q1 (j & Q2 & Q3)]. split; [exact Q1|]. exists j. split; [apply nth_snoc; auto|exact Q3].
    + intros w B. rewrite app_length. apply O in B. cbn. lia.
Qed.
Lemma inv_step ids p a p' : inv ids p -> step p a = Some p' -> inv (ids ++ new a) p'.
Proof.
  intros I E. destruct a as [id|w|g|g e|g|x|x]; cbn [step new] in *; rewrite ?app_nil_r.
  - injection E as <-. apply inv_call. exact I.
  - destruct (Nat.ltb w (next_call p)) eqn:Lt; [|discriminate]. destruct (mem w (gone p)) eqn:M; [discriminate|]. destruct (nget w (answers p)) eqn:An; [discriminate|].
    cbn in E. injection E as <-. destruct I as [C A G R Ex W L N Q O]. apply Nat.ltb_lt in Lt.
    apply mkinv; cbn [entries next_gen attempts executors next_call answers gone]; auto.
    + intros v j I1 I2 I3. apply L; auto. intros K. apply I3. right. exact K.
    + intros v a B. destruct (Q v a B) as [Q1 Q2]. split; [|exact Q2]. intros [<-|K]; [congruence|auto].
    + intros v [<-|K]; [lia|auto].
  - destruct (nget g (attempts p)) as [id|] eqn:G; [|discriminate]. destruct (published ids p g id I G) as (ws & H & P). rewrite P in E. injection E as <-.
    apply (ended ids p g id ws _ _ (Got g) (Some (Initialized g)) I H); [intros j; apply get_put|]. right. auto.
  - destruct (nget g (attempts p)) as [id|] eqn:G; [|discriminate]. injection E as <-. apply inv_finish; auto; discriminate.
  - destruct (nget g (attempts p)) as [id|] eqn:G; [|discriminate]. injection E as <-. apply inv_finish; auto; discriminate.
  - destruct (nget x (executors p)) as [[id [|]]|] eqn:X; try discriminate. injection E as <-. destruct I as [C A G R [E1 E2] W L N Q O].
    assert (M : forall y j b, nget y (executors p) = Some (j, b) -> exists c, nget y ((x, (id, false)) :: ndel x (executors p)) = Some (j, c)).
    { intros y j b K. cbn. rewrite nget_ndel. destruct (Nat.eqb_spec x y) as [F|F]; [|eauto]. subst y. rewrite X in K. injection K as -> _. eauto. }
    apply mkinv; cbn [entries next_gen attempts executors next_call answers gone]; auto.
    + intros j y B. destruct (R j y B) as [b K]. exact (M y j b K).
    + split.
      * cbn. constructor; [|apply ndel_nodup; exact E1]. apply nget_none. rewrite nget_ndel, Nat.eqb_refl. reflexivity.
      * intros y B. apply E2. cbn in B. rewrite nget_ndel in B. destruct (Nat.eqb_spec x y) as [F|F]; [congruence|exact B].
    + intros w a B. destruct (Q w a B) as [Q1 (j & Q2 & Q3)]. split; [exact Q1|]. exists j. split; [exact Q2|]. intros y K. destruct (Q3 y K) as [b Z]. exact (M y j b Z).
  - destruct (nget x (executors p)) as [[id b]|] eqn:X; [|discriminate]. injection E as <-. unfold evict.
    destruct (get id (entries p)) as [[g ws|y]|] eqn:H; [destruct I; apply mkinv; auto| |destruct I; apply mkinv; auto].
    destruct (Nat.eqb_spec y x) as [F|F]; [|destruct I; apply mkinv; auto]. subst y. destruct I as [C A G R [E1 E2] W L N Q O].
    apply mkinv; cbn [entries next_gen attempts executors next_call answers gone]; auto.
    + intros g j. rewrite A, get_del. destruct (String.eqb_spec id j) as [K|K]; [|reflexivity]. subst j. rewrite H. split; intros [ws K]; discriminate.
    + intros j y. rewrite get_del. destruct (String.eqb id j); [discriminate|apply R].
    + intros j g ws. rewrite get_del. destruct (String.eqb id j); [discriminate|apply W].
    + intros w j I1 I2 I3. rewrite get_del. destruct (L w j I1 I2 I3) as (g & ws & B & B2). destruct (String.eqb_spec id j) as [K|K]; [|eauto]. subst j. congruence.
Qed.
Lemma inv_steps tr p : steps empty tr = Some p -> inv (asked tr) p.
Proof.
  revert p. induction tr as [|a tr IH] using rev_ind; intros p H.
  - injection H as <-. apply mkinv; cbn; try discriminate; try reflexivity.
    + intros g id. split; [discriminate|intros [ws K]; discriminate].
    + split; [constructor|easy].
    + split; [constructor|easy].
    + intros w id K. destruct w; discriminate.
    + constructor.
    + easy.
  - rewrite steps_snoc in H. destruct (steps empty tr) as [q|] eqn:E; [|discriminate]. rewrite asked_snoc. apply (inv_step _ q a p); [apply IH; reflexivity|exact H].
Qed.
