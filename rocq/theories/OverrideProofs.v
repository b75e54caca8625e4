From Coq Require Import String List NArith Bool Lia.
From Verif Require Import StrOrd RequiresModel RequiresHash FingerSpec FingerProofs OverrideModel OverrideSpec.
Import ListNotations.
Local Open Scope N_scope.
Local Open Scope list_scope.

(** * Contexts *)
Lemma active_in c s : is_flag_active c s = true <-> In s (active_flags c).
Proof.
  unfold is_flag_active. rewrite existsb_exists. split.
  - intros [x [I E]]. apply String.eqb_eq in E. subst. exact I.
  - intros I. exists s. split; [exact I|]. apply String.eqb_refl.
Qed.
Lemma range_lt c p : is_in_range c p = true <-> percentage_value c < p.
Proof. apply N.ltb_lt. Qed.
Lemma check_true l c : check_progressive_override l c true = true <-> in_effect (Some l) c.
Proof.
  assert (E : check_progressive_override l c true = match l with Custom s => is_flag_active c s | Percentage p => is_in_range c p end).
  { destruct l as [s|p]; cbn; [destruct (is_flag_active c s)|destruct (is_in_range c p)]; reflexivity. }
  rewrite E. destruct l; cbn; [apply active_in|apply range_lt].
Qed.
Lemma check_false l c : check_progressive_override l c false = true <-> ~ in_effect (Some l) c.
Proof.
  assert (E : check_progressive_override l c false = negb (check_progressive_override l c true)) by (destruct l as [s|p]; cbn; [destruct (is_flag_active c s)|destruct (is_in_range c p)]; reflexivity).
  rewrite E, <- check_true, negb_true_iff. destruct (check_progressive_override l c true); intuition congruence.
Qed.
Lemma bool_iff (a b : bool) : (a = true <-> b = true) <-> a = b.
Proof. destruct a, b; intuition congruence. Qed.

(** * Labels *)
Lemma labels_in ts l : In l (labels ts) <->
  exists t f jf, In t ts /\ In f (t_fields t) /\ In jf (f_joins f) /\ jf_label jf = Some l.
Proof.
  unfold labels. rewrite in_flat_map. split.
  - intros (t & It & I). apply in_flat_map in I. destruct I as (f & If & I). apply in_flat_map in I.
    destruct I as (jf & Ij & I). exists t, f, jf. destruct (jf_label jf) as [l'|]; [|destruct I].
    destruct I as [->|[]]. auto.
  - intros (t & f & jf & It & If & Ij & E). exists t. split; [exact It|]. apply in_flat_map. exists f. split; [exact If|].
    apply in_flat_map. exists jf. split; [exact Ij|]. rewrite E. left. reflexivity.
Qed.
Lemma same_side_labels ts c c' : same_side ts c c' <->
  forall l, In l (labels ts) -> (in_effect (Some l) c <-> in_effect (Some l) c').
Proof.
  split.
  - intros S l I. apply labels_in in I. destruct I as (t & f & jf & It & If & Ij & E).
    specialize (S t f jf It If Ij). rewrite E in S. destruct l; exact S.
  - intros S t f jf It If Ij. destruct (jf_label jf) as [l|] eqn:E; [|exact I].
    assert (L : In l (labels ts)) by (apply labels_in; exists t, f, jf; auto).
    specialize (S l L). destruct l; exact S.
Qed.
Lemma flags_in ts s : In s (flags ts) <-> In (Custom s) (labels ts).
Proof.
  unfold flags. rewrite in_flat_map. split.
  - intros ([x|x] & I & J); [|destruct J]. destruct J as [->|[]]. exact I.
  - intros I. exists (Custom s). split; [exact I|]. left. reflexivity.
Qed.
Lemma percentages_in ts p : In p (percentages ts) <-> In (Percentage p) (labels ts).
Proof.
  unfold percentages. rewrite in_flat_map. split.
  - intros ([x|x] & I & J); [destruct J|]. destruct J as [->|[]]. exact I.
  - intros I. exists (Percentage p). split; [exact I|]. left. reflexivity.
Qed.

(** * Edges *)
Definition knows (ls : list label) (e : edge) : Prop :=
  match e with
  | ReentryMove => True
  | FieldMove m => (forall l, m_label m = Some l -> In l ls) /\
                   (forall n l, m_overridden_by m = Some (n, Some l) -> In l ls)
  end.
Lemma overridden_by_some resolve name joins n l : overridden_by resolve name joins = Some (Some (n, l)) ->
  exists jf g, In jf joins /\ jf_override jf = Some name /\ jf_graph jf = Some g /\ n = resolve g /\ l = jf_label jf.
Proof.
  induction joins as [|jf joins IH]; cbn; [discriminate|]. intros E.
  assert (K : overridden_by resolve name joins = Some (Some (n, l)) -> exists jf' g, (jf = jf' \/ In jf' joins) /\
    jf_override jf' = Some name /\ jf_graph jf' = Some g /\ n = resolve g /\ l = jf_label jf').
  { intros E'. destruct (IH E') as (jf' & g & I & P). exists jf', g. split; [right; exact I|exact P]. }
  destruct (jf_override jf) as [from|] eqn:O; [|exact (K E)].
  destruct (String.eqb from name) eqn:Q; [|exact (K E)]. apply String.eqb_eq in Q. subst from.
  destruct (jf_graph jf) as [g|] eqn:G; [|discriminate]. injection E as <- <-.
  exists jf, g. auto 6.
Qed.
Lemma overridden_by_none resolve name joins : overridden_by resolve name joins = Some None ->
  forall jf, In jf joins -> jf_override jf <> Some name.
Proof.
  induction joins as [|jf joins IH]; cbn; intros E jf' I; [destruct I|].
  destruct (jf_override jf) as [from|] eqn:O.
  - destruct (String.eqb from name) eqn:Q.
    + destruct (jf_graph jf); discriminate.
    + apply String.eqb_neq in Q. destruct I as [<-|I]; [rewrite O; congruence|exact (IH E jf' I)].
  - destruct I as [<-|I]; [rewrite O; congruence|exact (IH E jf' I)].
Qed.
Definition join_labels (f : fdef) (l : label) : Prop := exists jf, In jf (f_joins f) /\ jf_label jf = Some l.
Lemma availability_in g f jf : availability g f = (true, Some jf) -> In jf (f_joins f) /\ jf_graph jf = Some g.
Proof.
  unfold availability. destruct (f_joins f) as [|j js] eqn:J; [discriminate|].
  destruct (find (in_graph g) (j :: js)) as [x|] eqn:F; [|discriminate]. intros E. injection E as ->.
  apply find_some in F. destruct F as [F G]. split; [exact F|].
  unfold in_graph in G. destruct (jf_graph jf) as [g'|]; [|discriminate]. apply String.eqb_eq in G. subst. reflexivity.
Qed.
Lemma field_edges_known resolve g f es ls : field_edges resolve g f = Some es ->
  (forall l, join_labels f l -> In l ls) -> Forall (knows ls) es.
Proof.
  unfold field_edges. intros E K. destruct (availability g f) as [available jf] eqn:A.
  destruct available; cbn [negb] in E; [|injection E as <-; constructor].
  destruct (overridden_by resolve (resolve g) (f_joins f)) as [ob|] eqn:O; [|discriminate].
  assert (KO : forall n l, ob = Some (n, Some l) -> In l ls).
  { intros n l ->. destruct (overridden_by_some _ _ _ _ _ O) as (j & g' & I & _ & _ & _ & L). apply K. exists j. auto. }
  destruct (match jf with Some jf => jf_external jf && negb (jf_requires jf) | None => false end);
    [injection E as <-; constructor|].
  destruct (f_union f) as [members|]; injection E as <-.
  - apply Forall_forall. intros e I. apply in_flat_map in I. destruct I as (i & _ & [<-|[<-|[]]]); cbn.
    + split; discriminate.
    + split; [discriminate|exact KO].
  - constructor.
    + cbn. split; [|exact KO]. intros l L. destruct jf as [jf|]; [|discriminate].
      apply availability_in in A. destruct A as [A _]. apply K. exists jf. auto.
    + apply Forall_forall. intros e I. apply repeat_spec in I. subst. exact Logic.I.
Qed.
Lemma viewed_edges_known g f ls : (forall l, join_labels f l -> In l ls) -> Forall (knows ls) (viewed_edges g f).
Proof.
  intros K. apply Forall_forall. intros e I. unfold viewed_edges in I. apply in_flat_map in I.
  destruct I as (jf & Ij & I). destruct (jf_provides jf) as [n|]; [|destruct I].
  destruct (in_graph g jf); [|destruct I]. destruct I as [<-|I].
  - cbn. split; [|discriminate]. intros l L. apply K. exists jf. auto.
  - apply repeat_spec in I. subst. cbn. split; discriminate.
Qed.
Lemma collect_forall {A B} (k : A -> option (list B)) (P : B -> Prop) l : forall r, collect k l = Some r ->
  (forall a x, In a l -> k a = Some x -> Forall P x) -> Forall P r.
Proof.
  induction l as [|a l IH]; cbn; intros r E K.
  - injection E as <-. constructor.
  - destruct (k a) as [x|] eqn:Ka; [|discriminate]. destruct (collect k l) as [y|]; [|discriminate].
    injection E as <-. apply Forall_app. split.
    + exact (K a x (or_introl eq_refl) Ka).
    + apply (IH y eq_refl). intros b z I. apply K. right. exact I.
Qed.
Lemma edges_known resolve ts es : graph_edges resolve ts = Some es -> Forall (knows (labels ts)) es.
Proof.
  intros E. apply (collect_forall _ _ _ _ E). clear E es. intros t es It E.
  apply (collect_forall _ _ _ _ E). clear E es. intros g es _ E.
  destruct (collect (field_edges resolve g) (t_fields t)) as [fe|] eqn:F; [|discriminate]. injection E as <-.
  assert (K : forall f, In f (t_fields t) -> forall l, join_labels f l -> In l (labels ts)).
  { intros f If l (jf & Ij & L). apply labels_in. exists t, f, jf. auto. }
  apply Forall_app. split; [|apply Forall_app; split].
  - destruct (t_typename t g); [|constructor]. constructor; [|constructor]. cbn. split; discriminate.
  - apply (collect_forall _ _ _ _ F). intros f x If X. apply (field_edges_known _ _ _ _ _ X). exact (K f If).
  - apply Forall_forall. intros e I. apply in_flat_map in I. destruct I as (f & If & I).
    pose proof (viewed_edges_known g f (labels ts) (K f If)) as V. rewrite Forall_forall in V. exact (V e I).
Qed.
Lemma known_same ls e c c' : knows ls e -> (forall l, In l ls -> (in_effect (Some l) c <-> in_effect (Some l) c')) ->
  usable e c = usable e c'.
Proof.
  destruct e as [[lb ob]|]; [|reflexivity]. cbn. intros [KL KO] S. unfold satisfies. cbn.
  destruct ob as [[n [l|]]|]; [|reflexivity|].
  - apply bool_iff. rewrite !check_false. specialize (S l (KO n l eq_refl)). tauto.
  - destruct lb as [l|]; [|reflexivity]. apply bool_iff. rewrite !check_true. exact (S l (KL l eq_refl)).
Qed.
Lemma same_decisions resolve ts es c c' : graph_edges resolve ts = Some es -> same_side ts c c' ->
  forall e, In e es -> usable e c = usable e c'.
Proof.
  intros E S e I. pose proof (edges_known _ _ _ E) as K. rewrite Forall_forall in K.
  apply (known_same _ _ _ _ (K e I)). apply same_side_labels. exact S.
Qed.

(** * The stable context *)
Section Insert.
Context {K : Type} (cmp : K -> K -> comparison) (cmp_eq : forall a b, cmp a b = Eq -> a = b).
Fixpoint ins (k : K) (b : bool) (m : list (K * bool)) : list (K * bool) :=
  match m with
  | [] => [(k, b)]
  | (k', b') :: m' => match cmp k k' with
                      | Lt => (k, b) :: m
                      | Eq => (k, b) :: m'
                      | Gt => (k', b') :: ins k b m'
                      end
  end.
Definition build (v : K -> bool) (ks : list K) (m : list (K * bool)) := fold_left (fun m k => ins k (v k) m) ks m.
Lemma ins_here k b m : In (k, b) (ins k b m).
Proof. induction m as [|[k' b'] m IH]; cbn; [auto|]. destruct (cmp k k'); cbn; auto. Qed.
Lemma ins_old k b m x : In x (ins k b m) -> x = (k, b) \/ In x m.
Proof.
  induction m as [|[k' b'] m IH]; cbn; [intuition|]. destruct (cmp k k'); cbn; [intuition|intuition|].
  intros [<-|I]; [auto|]. destruct (IH I); auto.
Qed.
Lemma ins_keep v k m k' : In (k', v k') m -> In (k', v k') (ins k (v k) m).
Proof.
  induction m as [|[x b] m IH]; cbn; [intuition|]. destruct (cmp k x) eqn:C; cbn; [|intuition|intuition].
  apply cmp_eq in C. subst x. intros [E|I]; [|auto]. injection E as -> _. auto.
Qed.
Lemma build_values v ks : forall m, (forall x b, In (x, b) m -> b = v x) -> forall x b, In (x, b) (build v ks m) -> b = v x.
Proof.
  induction ks as [|k ks IH]; cbn; intros m P x b I; [exact (P x b I)|].
  apply (IH (ins k (v k) m)); [|exact I]. intros y c J. apply ins_old in J. destruct J as [E|J]; [congruence|exact (P y c J)].
Qed.
Lemma build_keep v ks : forall m k, In (k, v k) m -> In (k, v k) (build v ks m).
Proof. induction ks as [|k' ks IH]; cbn; intros m k I; [exact I|]. apply IH. apply ins_keep. exact I. Qed.
Lemma build_all v ks : forall m k, In k ks -> In (k, v k) (build v ks m).
Proof.
  induction ks as [|k' ks IH]; cbn; intros m k I; [destruct I|]. destruct I as [->|I]; [|exact (IH _ k I)].
  apply build_keep. apply ins_here.
Qed.
Lemma build_ext v v' ks : forall m, (forall k, In k ks -> v k = v' k) -> build v ks m = build v' ks m.
Proof.
  induction ks as [|k ks IH]; cbn; intros m P; [reflexivity|]. rewrite (P k (or_introl eq_refl)).
  apply IH. intros x I. apply P. right. exact I.
Qed.
Lemma ins_keys k b b' m m' : map fst m = map fst m' -> map fst (ins k b m) = map fst (ins k b' m').
Proof.
  revert m'. induction m as [|[x c] m IH]; intros [|[x' c'] m'] E; try discriminate; [reflexivity|].
  cbn in E. injection E as -> E. cbn. destruct (cmp k x'); cbn; try (rewrite E; reflexivity).
  rewrite (IH m' E). reflexivity.
Qed.
Lemma build_keys v v' ks : forall m m', map fst m = map fst m' -> map fst (build v ks m) = map fst (build v' ks m').
Proof. induction ks as [|k ks IH]; cbn; intros m m' E; [exact E|]. apply IH. apply ins_keys. exact E. Qed.
Lemma build_iff v v' ks : build v ks [] = build v' ks [] <-> forall k, In k ks -> v k = v' k.
Proof.
  split; [|apply build_ext]. intros E k I. pose proof (build_all v ks [] k I) as J. rewrite E in J.
  apply (build_values v' ks []) in J; [exact J|]. intros x b [].
Qed.
End Insert.

Lemma flags_build ts c : s_flags (stable_of ts c) = build String.compare (is_flag_active c) (flags ts) [].
Proof. reflexivity. Qed.
Lemma outcomes_build ts c : s_outcomes (stable_of ts c) = build N.compare (is_in_range c) (percentages ts) [].
Proof. reflexivity. Qed.

Lemma stable_iff ts c c' : stable_of ts c = stable_of ts c' <-> same_side ts c c'.
Proof.
  assert (E : stable_of ts c = stable_of ts c' <->
    s_flags (stable_of ts c) = s_flags (stable_of ts c') /\ s_outcomes (stable_of ts c) = s_outcomes (stable_of ts c')).
  { split; [intros ->; auto|]. unfold stable_of. cbn. intros [-> ->]. reflexivity. }
  rewrite E, !flags_build, !outcomes_build, (build_iff _ str_compare_eq), (build_iff _ N.compare_eq), same_side_labels. split.
  - intros [F P] [s|p] I.
    + apply flags_in, F in I. cbn. rewrite <- !active_in, I. tauto.
    + apply percentages_in, P in I. cbn. rewrite <- !range_lt, I. tauto.
  - intros S. split.
    + intros s I. apply flags_in, S in I. apply bool_iff. rewrite !active_in. exact I.
    + intros p I. apply percentages_in, S in I. apply bool_iff. rewrite !range_lt. exact I.
Qed.

(** * The key *)
Lemma bit_inj a b : bit a = bit b -> a = b.
Proof. destruct a, b; cbn; congruence. Qed.
Lemma enc_flags_inj l : forall l' r r', map fst l = map fst l' -> enc_flags l ++ r = enc_flags l' ++ r' -> l = l' /\ r = r'.
Proof.
  induction l as [|[k b] l IH]; intros [|[k' b'] l'] r r' K E; try discriminate; [auto|].
  cbn in K. injection K as -> K. cbn [enc_flags flat_map fst snd] in E. rewrite <- !app_assoc in E.
  apply app_inv_head in E. cbn in E. apply cons_inv in E. destruct E as [B E]. apply bit_inj in B. subst b'.
  destruct (IH l' r r' K E) as [-> ->]. auto.
Qed.
Lemma enc_outcomes_inj l : forall l', map fst l = map fst l' -> enc_outcomes l = enc_outcomes l' -> l = l'.
Proof.
  induction l as [|[k b] l IH]; intros [|[k' b'] l'] K E; try discriminate; [auto|].
  cbn in K. injection K as -> K. cbn [enc_outcomes flat_map fst snd] in E. rewrite <- !app_assoc in E.
  apply app_inv_head in E. cbn [List.app] in E. apply cons_inv in E. destruct E as [B E]. apply bit_inj in B. subst b'.
  rewrite (IH l' K E). reflexivity.
Qed.
Lemma enc_stable_inj ts c c' : enc_stable (stable_of ts c) = enc_stable (stable_of ts c') -> stable_of ts c = stable_of ts c'.
Proof.
  intros E. unfold enc_stable in E.
  assert (KF : map fst (s_flags (stable_of ts c)) = map fst (s_flags (stable_of ts c'))).
  { rewrite !flags_build. apply build_keys. reflexivity. }
  assert (KO : map fst (s_outcomes (stable_of ts c)) = map fst (s_outcomes (stable_of ts c'))).
  { rewrite !outcomes_build. apply build_keys. reflexivity. }
  apply app_len_inj in E; [|rewrite !le_length; reflexivity]. destruct E as [_ E].
  apply enc_flags_inj in E; [|exact KF]. destruct E as [EF E].
  apply app_len_inj in E; [|rewrite !le_length; reflexivity]. destruct E as [_ E].
  apply enc_outcomes_inj in E; [|exact KO].
  destruct (stable_of ts c) as [a b], (stable_of ts c') as [a' b']. cbn in EF, E. subst. reflexivity.
Qed.
Lemma enc_key_inj h h' ts c c' : h < 2 ^ 64 -> h' < 2 ^ 64 -> enc_key h (stable_of ts c) = enc_key h' (stable_of ts c') ->
  h = h' /\ same_side ts c c'.
Proof.
  intros B B' E. unfold enc_key in E. apply le8_inj in E; [|exact B|exact B']. destruct E as [-> E].
  split; [reflexivity|]. apply stable_iff. apply enc_stable_inj. exact E.
Qed.
Lemma different_key H resolve ts es e h h' c c' : graph_edges resolve ts = Some es -> In e es ->
  usable e c <> usable e c' -> h < 2 ^ 64 -> h' < 2 ^ 64 ->
  tells H (enc_key h (stable_of ts c)) (enc_key h' (stable_of ts c')) ->
  cache_key H h (stable_of ts c) <> cache_key H h' (stable_of ts c').
Proof.
  intros G I U B B' T K. apply T in K. apply enc_key_inj in K; [|exact B|exact B']. destruct K as [_ S].
  apply U. exact (same_decisions _ _ _ _ _ G S e I).
Qed.
Lemma same_key H ts h c c' : same_side ts c c' -> cache_key H h (stable_of ts c) = cache_key H h (stable_of ts c').
Proof. intros S. apply stable_iff in S. rewrite S. reflexivity. Qed.

(** * The cache *)
Section Cache.
Context {Op Plan : Type} (H : list N -> N) (op_hash : Op -> N) (op_empty : Op -> bool) (empty_plan : Plan)
  (resolve : string -> string) (ts : list tdef) (edges : list edge) (planner : Op -> list bool -> option Plan)
  (G : graph_edges resolve ts = Some edges).
Notation fresh := (fresh_plan op_empty empty_plan edges planner).
Notation key := (key_of H op_hash ts).
Lemma equal_keys q q' : asks op_empty q -> asks op_empty q' -> keys_tell H op_hash ts q q' -> key q = key q' ->
  fresh q = fresh q'.
Proof.
  intros A A' (B & B' & O & T) K. apply T in K. apply enc_key_inj in K; [|exact B|exact B'].
  destruct K as [Eh S]. apply O in Eh. unfold fresh_plan. unfold asks in A, A'. rewrite <- Eh in *.
  destruct (op_empty (q_op q)); cbn [andb].
  - destruct (q_introspection q), (q_introspection q'), (q_projection_empty q), (q_projection_empty q'); cbn [negb];
      try reflexivity; first [destruct (A eq_refl); discriminate|destruct (A' eq_refl); discriminate].
  - f_equal. apply map_ext_in. intros e I. exact (same_decisions _ _ _ _ _ G S e I).
Qed.
Definition sound (qs : list (req Op)) (cache : list (N * Plan)) : Prop :=
  forall k p, In (k, p) cache -> exists q, In q qs /\ key q = k /\ fresh q = Some p.
Lemma serve_fresh es : forall cache qs,
  (forall q q', In q (qs ++ requests es) -> In q' (qs ++ requests es) -> keys_tell H op_hash ts q q') ->
  (forall q, In q (qs ++ requests es) -> asks op_empty q) -> sound qs cache ->
  serve H op_hash op_empty empty_plan ts edges planner cache es = map fresh (requests es).
Proof.
  induction es as [|[q|k] es IH]; intros cache qs T A S.
  - reflexivity.
  - cbn [serve]. unfold plan_with_cache.
    assert (Iq : In q (qs ++ requests (Request q :: es))) by (apply in_or_app; right; left; reflexivity).
    assert (T' : forall a b, In a ((qs ++ [q]) ++ requests es) -> In b ((qs ++ [q]) ++ requests es) -> keys_tell H op_hash ts a b).
    { rewrite <- app_assoc. exact T. }
    assert (A' : forall a, In a ((qs ++ [q]) ++ requests es) -> asks op_empty a).
    { rewrite <- app_assoc. exact A. }
    assert (S' : sound (qs ++ [q]) cache).
    { intros k p I. destruct (S k p I) as (a & Ia & P). exists a. split; [apply in_or_app; auto|exact P]. }
    unfold lookup. destruct (find (fun e => fst e =? key q) cache) as [[k p]|] eqn:F.
    + apply find_some in F. destruct F as [F E]. cbn in E. apply N.eqb_eq in E. cbn [snd].
      destruct (S k p F) as (a & Ia & Ka & Fa). cbn [requests flat_map List.app map].
      assert (Ia' : In a (qs ++ requests (Request q :: es))) by (apply in_or_app; auto).
      rewrite <- Fa. rewrite (equal_keys a q (A a Ia') (A q Iq) (T a q Ia' Iq)) by congruence.
      f_equal. exact (IH cache (qs ++ [q]) T' A' S').
    + destruct (fresh q) as [p|] eqn:Fq; cbn [requests flat_map List.app map]; rewrite Fq; f_equal.
      * apply (IH _ (qs ++ [q]) T' A'). intros k' p' [E|I]; [|exact (S' k' p' I)]. injection E as <- <-.
        exists q. split; [apply in_or_app; right; left; reflexivity|auto].
      * exact (IH cache (qs ++ [q]) T' A' S').
  - cbn [serve]. apply (IH _ qs T A). intros k' p I. apply filter_In in I. destruct I as [I _]. exact (S k' p I).
Qed.
Lemma serve_empty es :
  (forall q q', In q (requests es) -> In q' (requests es) -> keys_tell H op_hash ts q q') ->
  (forall q, In q (requests es) -> asks op_empty q) ->
  serve H op_hash op_empty empty_plan ts edges planner [] es = map fresh (requests es).
Proof. intros T A. apply (serve_fresh es [] [] T A). intros k p []. Qed.
End Cache.

(** * Routing *)
Lemma routing resolve g f es m c : composed resolve f -> f_union f = None -> field_edges resolve g f = Some es ->
  In (FieldMove m) es -> (satisfies m c = true <-> serves resolve g f c).
Proof.
  intros (C1 & C2 & C3 & C4 & C5) U E I. unfold field_edges in E. destruct (availability g f) as [available jf] eqn:A.
  destruct available; cbn [negb] in E; [|injection E as <-; destruct I].
  destruct (overridden_by resolve (resolve g) (f_joins f)) as [ob|] eqn:O; [|discriminate].
  destruct (match jf with Some jf => jf_external jf && negb (jf_requires jf) | None => false end);
    [injection E as <-; destruct I|].
  rewrite U in E. injection E as <-. destruct I as [I|I]; [|apply repeat_spec in I; discriminate].
  unfold create_field_move in I. injection I as <-. unfold satisfies. cbn [m_label m_overridden_by]. unfold serves.
  destruct ob as [[n l]|].
  - destruct (overridden_by_some _ _ _ _ _ O) as (b & g' & Ib & Ob & _ & _ & L).
    assert (W : (match l with Some l => check_progressive_override l c false | None => false end = true) <->
                ~ in_effect l c).
    { destruct l as [l|]; [apply check_false|]. cbn. split; [discriminate|]. intros X. destruct (X Logic.I). }
    rewrite W, L. split.
    + intros X. split.
      * intros a Ia Oa. assert (a = b) by (apply C4; [exact Ia|exact Ib|congruence|congruence]). subst a. exact X.
      * intros a Ia Ga Oa. destruct (C5 a b g Ia Ib Ga Oa Ob).
    + intros [X _]. exact (X b Ib Ob).
  - pose proof (overridden_by_none _ _ _ O) as N. destruct jf as [jf|].
    + apply availability_in in A. destruct A as [Ij Gj].
      assert (W : (match jf_label jf with Some l => check_progressive_override l c true | None => true end = true) <->
                  in_effect (jf_label jf) c).
      { destruct (jf_label jf) as [l|]; [apply check_true|]. cbn. tauto. }
      rewrite W. split.
      * intros X. split; [intros a Ia Oa; destruct (N a Ia Oa)|].
        intros a Ia Ga _. rewrite (C1 a jf g Ia Ij Ga Gj). exact X.
      * intros [_ X]. destruct (jf_label jf) as [l|] eqn:L; [|exact Logic.I]. rewrite <- L. apply X; [exact Ij|exact Gj|].
        apply C2; [exact Ij|]. congruence.
    + assert (J : f_joins f = []).
      { unfold availability in A. destruct (f_joins f) as [|j js]; [reflexivity|].
        destruct (find (in_graph g) (j :: js)); discriminate. }
      rewrite J. split; [|auto]. intros _. split; intros a [].
Qed.

(** Of two subgraphs, one of which takes the field from the other, exactly one serves it. *)
Lemma exclusive resolve f a b ga gb c : composed resolve f ->
  In a (f_joins f) -> In b (f_joins f) -> jf_graph a = Some ga -> jf_graph b = Some gb ->
  jf_override b = Some (resolve ga) -> jf_override a = None ->
  (serves resolve gb f c <-> in_effect (jf_label b) c) /\ (serves resolve ga f c <-> ~ in_effect (jf_label b) c).
Proof.
  intros (C1 & C2 & C3 & C4 & C5) Ia Ib Ga Gb Ob Oa. unfold serves. split; split.
  - intros [_ X]. apply (X b Ib Gb). congruence.
  - intros X. split.
    + intros x Ix Ox. destruct (C5 b x gb Ib Ix Gb ltac:(congruence) Ox).
    + intros x Ix Gx _. rewrite (C1 x b gb Ix Ib Gx Gb). exact X.
  - intros [X _]. exact (X b Ib Ob).
  - intros X. split.
    + intros x Ix Ox. rewrite (C4 x b Ix Ib ltac:(congruence) ltac:(congruence)). exact X.
    + intros x Ix Gx Ox. rewrite (C1 x a ga Ix Ia Gx Ga) in Ox. congruence.
Qed.

(** * Evaluation *)
Lemma mem_in l a : existsb (String.eqb l) a = true <-> In l a.
Proof.
  rewrite existsb_exists. split.
  - intros [x [I E]]. apply String.eqb_eq in E. subst. exact I.
  - intros I. exists l. split; [exact I|]. apply String.eqb_refl.
Qed.
Lemma evaluate_each_some outcome es : forall a r, evaluate_each outcome es a = Some r ->
  forall l, In l r <-> In l a \/ (In l es /\ outcome l = VrlBoolean true).
Proof.
  induction es as [|e es IH]; cbn; intros a r E l.
  - injection E as <-. intuition.
  - destruct (existsb (String.eqb e) a) eqn:M.
    + apply mem_in in M. rewrite (IH a r E l). intuition (subst; auto).
    + destruct (outcome e) as [[|]| |] eqn:Oe; try discriminate.
      * rewrite (IH _ r E l). cbn. intuition (subst; auto).
      * rewrite (IH a r E l). intuition (subst; auto). congruence.
Qed.
Lemma evaluate_each_none outcome es : forall a, NoDup es -> (evaluate_each outcome es a = None <->
  exists l, In l es /\ ~ In l a /\ (forall b, outcome l <> VrlBoolean b)).
Proof.
  induction es as [|e es IH]; cbn; intros a D.
  - split; [discriminate|]. intros (l & [] & _).
  - inversion_clear D as [|? ? D1 D2]. destruct (existsb (String.eqb e) a) eqn:M.
    + apply mem_in in M. rewrite (IH a D2). split.
      * intros (l & I & P). exists l. auto.
      * intros (l & [<-|I] & P); [tauto|]. exists l. auto.
    + assert (Ne : ~ In e a) by (rewrite <- mem_in, M; discriminate).
      destruct (outcome e) as [[|]| |] eqn:Oe.
      * rewrite (IH _ D2). cbn. split.
        -- intros (l & I & NI & P). exists l. intuition.
        -- intros (l & [<-|I] & NI & P); [destruct (P true Oe)|]. exists l. split; [exact I|]. split; [|exact P].
           intros [<-|J]; [exact (D1 I)|exact (NI J)].
      * rewrite (IH _ D2). split.
        -- intros (l & I & NI & P). exists l. auto.
        -- intros (l & [<-|I] & NI & P); [destruct (P false Oe)|]. exists l. auto.
      * split; [|auto]. intros _. exists e. split; [auto|]. split; [exact Ne|]. rewrite Oe. discriminate.
      * split; [|auto]. intros _. exists e. split; [auto|]. split; [exact Ne|]. rewrite Oe. discriminate.
Qed.
Lemma statics_in cfg l : In l (statics cfg) <-> In (l, LBool true) cfg.
Proof.
  unfold statics. rewrite in_flat_map. split.
  - intros ([k [[|]|]] & I & J); cbn in J; try tauto. destruct J as [->|[]]. exact I.
  - intros I. exists (l, LBool true). split; [exact I|]. left. reflexivity.
Qed.
Lemma expressions_in cfg l : In l (expressions cfg) <-> In (l, LExpression) cfg.
Proof.
  unfold expressions. rewrite in_flat_map. split.
  - intros ([k [[|]|]] & I & J); cbn in J; try tauto. destruct J as [->|[]]. exact I.
  - intros I. exists (l, LExpression). split; [exact I|]. left. reflexivity.
Qed.
Lemma expressions_nodup cfg : NoDup (map fst cfg) -> NoDup (expressions cfg).
Proof.
  induction cfg as [|[k v] cfg IH]; cbn; intros D; [constructor|]. inversion_clear D as [|? ? D1 D2].
  destruct v as [[|]|]; cbn; [exact (IH D2)|exact (IH D2)|]. constructor; [|exact (IH D2)].
  intros I. apply expressions_in in I. apply D1. apply in_map_iff. exists (k, LExpression). auto.
Qed.
Lemma start_in (resolved : option (list string)) st l : In l (match resolved with Some r => r ++ st | None => st end) <->
  (exists r, resolved = Some r /\ In l r) \/ In l st.
Proof.
  destruct resolved as [r|].
  - rewrite in_app_iff. split; [intros [I|I]; [left; exists r; auto|auto]|].
    intros [(r' & E & I)|I]; [injection E as ->; auto|auto].
  - split; [auto|]. intros [(r' & E & I)|I]; [discriminate|auto].
Qed.
Lemma evaluate_some outcome cfg resolved a : evaluate outcome (statics cfg) (expressions cfg) resolved = Some a ->
  forall l, In l a <-> active outcome cfg resolved l.
Proof.
  intros E l. unfold evaluate in E. rewrite (evaluate_each_some _ _ _ _ E l), start_in, statics_in, expressions_in.
  unfold active. tauto.
Qed.
Lemma evaluate_none outcome cfg resolved : NoDup (map fst cfg) ->
  (evaluate outcome (statics cfg) (expressions cfg) resolved = None <->
   exists l, In (l, LExpression) cfg /\ ~ (exists r, resolved = Some r /\ In l r) /\ forall b, outcome l <> VrlBoolean b).
Proof.
  intros D. unfold evaluate. rewrite (evaluate_each_none _ _ _ (expressions_nodup cfg D)). split.
  - intros (l & I & NI & P). rewrite start_in in NI. apply expressions_in in I. exists l. tauto.
  - intros (l & I & NI & P). exists l. rewrite start_in, expressions_in, statics_in. split; [exact I|]. split; [|exact P].
    intros [X|X]; [exact (NI X)|]. clear -D I X. induction cfg as [|[k v] cfg IH]; [exact I|].
    cbn in D. inversion_clear D as [|? ? D1 D2].
    destruct I as [I|I], X as [X|X]; try congruence.
    + apply D1. injection I as -> _. apply in_map_iff. exists (l, LBool true). auto.
    + apply D1. injection X as -> _. apply in_map_iff. exists (l, LExpression). auto.
    + exact (IH D2 I X).
Qed.

(** * The wrong edges *)
Definition plain_jf (g : string) (p : option nat) : join_field :=
  {| jf_graph := Some g; jf_override := None; jf_label := None; jf_external := false; jf_requires := false; jf_provides := p |}.
Definition taking_jf (g from : string) (l : option label) : join_field :=
  {| jf_graph := Some g; jf_override := Some from; jf_label := l; jf_external := false; jf_requires := false; jf_provides := None |}.
Definition ab_field (l : option label) (p : option nat) (u : option (string -> nat)) : fdef :=
  {| f_joins := [plain_jf "A" p; taking_jf "B" "A" l]; f_union := u; f_entries := fun _ => O |}.
Lemma ab_composed l p u : composed (fun g => g) (ab_field l p u).
Proof.
  unfold composed. cbn [f_joins ab_field].
  split; [|split; [|split; [|split]]].
  - intros a b g [<-|[<-|[]]] [<-|[<-|[]]] Ea Eb; cbn in Ea, Eb; congruence.
  - intros a [<-|[<-|[]]] X; cbn in *; congruence.
  - intros a [<-|[<-|[]]] X; cbn in *; congruence.
  - intros a b [<-|[<-|[]]] [<-|[<-|[]]] X Y; cbn in X, Y; congruence.
  - intros a b g [<-|[<-|[]]] [<-|[<-|[]]] X Y; cbn in X, Y |- *; congruence.
Qed.
Lemma union_wrong : exists f g es e c, composed (fun x => x) f /\ field_edges (fun x => x) g f = Some es /\
  In e es /\ (forall e, In e es -> usable e c = true) /\ ~ serves (fun x => x) g f c.
Proof.
  exists (ab_field (Some (Custom "new")) None (Some (fun _ => 1%nat))), "B"%string.
  eexists. exists (create_field_move None None), {| active_flags := []; percentage_value := 0 |}.
  split; [apply ab_composed|]. split; [reflexivity|]. split; [left; reflexivity|]. split.
  - intros e [<-|[<-|[]]]; reflexivity.
  - intros [_ S]. apply (S (taking_jf "B" "A" (Some (Custom "new")))); [right; left; reflexivity|reflexivity|discriminate].
Qed.
Lemma provides_wrong : exists f g e, composed (fun x => x) f /\ f_union f = None /\
  In e (viewed_edges g f) /\ forall c, usable e c = true /\ ~ serves (fun x => x) g f c.
Proof.
  exists (ab_field None (Some 1%nat) None), "A"%string, (create_field_move (Some (plain_jf "A" (Some 1%nat))) None).
  split; [apply ab_composed|]. split; [reflexivity|]. split; [left; reflexivity|]. intros c. split; [reflexivity|].
  intros [S _]. apply (S (taking_jf "B" "A" None)); [right; left; reflexivity|reflexivity|exact I].
Qed.
Lemma hundred_wrong : exists f es m c, composed (fun x => x) f /\ f_union f = None /\
  (exists jf, In jf (f_joins f) /\ jf_label jf = Some (Percentage (100 * scale)) /\ jf_override jf = Some "A"%string) /\
  percentage_value c <= 100 * scale /\
  field_edges (fun x => x) "A" f = Some es /\ In (FieldMove m) es /\ satisfies m c = true.
Proof.
  exists (ab_field (Some (Percentage (100 * scale))) None None). eexists. eexists.
  exists {| active_flags := []; percentage_value := 100 * scale |}.
  split; [apply ab_composed|]. split; [reflexivity|]. split.
  { exists (taking_jf "B" "A" (Some (Percentage (100 * scale)))). split; [right; left; reflexivity|]. split; reflexivity. }
  split; [cbn [percentage_value]; lia|]. split; [reflexivity|]. split; [left; reflexivity|]. reflexivity.
Qed.
Lemma history_wrong : exists (q q' : req nat) (planner : nat -> list bool -> option nat),
  (forall ds, planner O ds = None) /\ q_op q = q_op q' /\ q_ctx q = q_ctx q' /\
  forall H, serve H (fun _ => 0) (Nat.eqb 0) 7%nat [] [] planner [] [Request q] = [None] /\
            serve H (fun _ => 0) (Nat.eqb 0) 7%nat [] [] planner [] [Request q'; Request q] = [Some 7%nat; Some 7%nat].
Proof.
  exists {| q_op := O; q_projection_empty := true; q_introspection := false; q_ctx := {| active_flags := []; percentage_value := 0 |} |},
         {| q_op := O; q_projection_empty := false; q_introspection := true; q_ctx := {| active_flags := []; percentage_value := 0 |} |},
         (fun _ _ => None).
  split; [reflexivity|]. split; [reflexivity|]. split; [reflexivity|]. intros H. split; [reflexivity|].
  cbn [serve]. unfold plan_with_cache, lookup. cbn [find fresh_plan q_op q_introspection Nat.eqb andb serve fst].
  unfold key_of. cbn [q_op q_ctx]. rewrite N.eqb_refl. reflexivity.
Qed.

Lemma overridden_by_total resolve name joins : (forall jf, In jf joins -> jf_override jf <> None -> jf_graph jf <> None) ->
  overridden_by resolve name joins <> None.
Proof.
  induction joins as [|jf joins IH]; cbn; intros K; [discriminate|].
  assert (R : overridden_by resolve name joins <> None) by (apply IH; intros x I; apply K; right; exact I).
  pose proof (K jf (or_introl eq_refl)) as Kj. destruct (jf_override jf) as [from|]; [|exact R].
  destruct (String.eqb from name); [|exact R]. destruct (jf_graph jf); [discriminate|]. intros _.
  apply Kj; [discriminate|reflexivity].
Qed.
Lemma collect_total {A B} (k : A -> option (list B)) l : (forall a, In a l -> k a <> None) -> collect k l <> None.
Proof.
  induction l as [|a l IH]; cbn; intros K; [discriminate|].
  pose proof (K a (or_introl eq_refl)) as Ka. destruct (k a); [|congruence].
  assert (R : collect k l <> None) by (apply IH; intros x I; apply K; right; exact I).
  destruct (collect k l); congruence.
Qed.
Lemma graph_total resolve ts :
  (forall t f jf, In t ts -> In f (t_fields t) -> In jf (f_joins f) -> jf_override jf <> None -> jf_graph jf <> None) ->
  graph_edges resolve ts <> None.
Proof.
  intros K. apply collect_total. intros t It. apply collect_total. intros g _.
  assert (R : collect (field_edges resolve g) (t_fields t) <> None).
  { apply collect_total. intros f If. unfold field_edges. destruct (availability g f) as [[|] jf]; cbn [negb]; [|discriminate].
    pose proof (overridden_by_total resolve (resolve g) (f_joins f) (fun jf => K t f jf It If)) as O.
    destruct (overridden_by resolve (resolve g) (f_joins f)); [|congruence].
    destruct (match jf with Some jf => jf_external jf && negb (jf_requires jf) | None => false end); [discriminate|].
    destruct (f_union f); discriminate. }
  destruct (collect (field_edges resolve g) (t_fields t)); [discriminate|congruence].
Qed.
