(** Proofs about the request context. *)
From Coq Require Import List Bool Arith Lia String Ascii.
From Verif Require Import JsonModel CtxModel CtxSpec.
Import ListNotations.
Local Open Scope string_scope.
Local Open Scope list_scope.

Lemma prefix_iff p : forall s, prefix p s = true <-> exists r, s = (p ++ r)%string.
Proof.
  induction p as [|a p IH]; intros s; cbn.
  - split; [eauto|]. destruct s; reflexivity.
  - destruct s as [|b s]; [split; [discriminate | intros (r & X); discriminate]|]. cbn [prefix]. destruct (ascii_dec a b) as [->|N].
    + specialize (IH s). split; [intros X; apply IH in X; destruct X as (r & ->); exists r; reflexivity | intros (r & X); apply IH; exists r; congruence].
    + split; [discriminate | intros (r & X)]. congruence.
Qed.
Lemma reserved_iff k : prefix "hive::" k = true <-> reserved k.
Proof. apply prefix_iff. Qed.
Lemma longer a b k : prefix (a ++ b) k = true -> prefix a k = true.
Proof.
  rewrite !prefix_iff. intros (r & ->). exists (b ++ r)%string. clear. induction a as [|x a IH]; [reflexivity|]. cbn. rewrite IH. reflexivity.
Qed.

(** ** What is kept *)
Definition kept (c c' : context) : Prop :=
  op_name c' = op_name c /\ op_kind c' = op_kind c /\ unresolved_labels c' = unresolved_labels c /\ jwt_scopes c' = jwt_scopes c /\ jwt_status c' = jwt_status c /\
  client_name c' = client_name c /\ client_version c' = client_version c.
Lemma kept_refl c : kept c c.
Proof. repeat split. Qed.
Lemma set_kept k v c : kept c (fst (set k v c)).
Proof.
  unfold set, set_reserved, put_labels, put_skip. destruct (prefix "hive::" k); cbn [negb]; [|repeat split].
  repeat match goal with |- context [if ?b then _ else _] => match b with prefix _ _ => destruct b | String.eqb _ _ => destruct b end end; try apply kept_refl;
    destruct v; try apply kept_refl; try (repeat split; fail). destruct (strings l []); repeat split.
Qed.
Lemma apply_kept p : forall c c' e, apply_patch p c = (c', e) -> kept c c'.
Proof.
  induction p as [|(k, v) p IH]; intros c c' e; cbn.
  - intros X. injection X as <- <-. apply kept_refl.
  - pose proof (set_kept k v c) as K. destruct (set k v c) as (c1, [e1|]); cbn in K; intros X; [injection X as <- <-; exact K|].
    specialize (IH _ _ _ X). unfold kept in *. intuition congruence.
Qed.

(** ** What is accepted *)
Lemma set_insert_in x y l : In y (set_insert x l) <-> y = x \/ In y l.
Proof.
  unfold set_insert. destruct (existsb (String.eqb x) l) eqn:X.
  - apply existsb_exists in X. destruct X as (z & Z & Q). apply String.eqb_eq in Q. subst z. split; [auto | intros [->|H]; auto].
  - rewrite in_app_iff. cbn. intuition congruence.
Qed.
Lemma set_insert_nodup x l : NoDup l -> NoDup (set_insert x l).
Proof.
  intros N. unfold set_insert. destruct (existsb (String.eqb x) l) eqn:X; [exact N|].
  assert (Nx : ~ In x l) by (intros I; assert (T : existsb (String.eqb x) l = true) by (apply existsb_exists; exists x; rewrite String.eqb_refl; auto); congruence).
  clear X. induction l as [|a l IH]; cbn; [constructor; [intros [] | constructor]|]. inversion N; subst. constructor.
  - rewrite in_app_iff. cbn. intros [H|[H|[]]]; [contradiction | subst; apply Nx; left; reflexivity].
  - apply IH; [assumption | intros I; apply Nx; right; exact I].
Qed.
Lemma strings_some w : forall acc, exists s, strings (map VStr w) acc = Some s /\ (NoDup acc -> NoDup s) /\ forall x, In x s <-> In x w \/ In x acc.
Proof.
  induction w as [|a w IH]; intros acc; cbn.
  - exists acc. repeat split; auto. tauto.
  - destruct (IH (set_insert a acc)) as (s & A & B & C). exists s. split; [exact A|]. split; [intros N; apply B, set_insert_nodup, N|]. intros x. rewrite C, set_insert_in. intuition congruence.
Qed.
Lemma strings_inv l : forall acc s, strings l acc = Some s -> exists w, l = map VStr w.
Proof.
  induction l as [|v l IH]; intros acc s X; [exists []; reflexivity|]. destruct v; cbn in X; try discriminate. destruct (IH _ _ X) as (w & ->). exists (s0 :: w). reflexivity.
Qed.
Definition LABELS : string := "hive::progressive_override::labels_to_override".
Definition SKIP : string := "hive::persisted_documents::skip_enforcement".
Lemma set_labels_key v c : set LABELS v c = put_labels LABELS v c.
Proof. reflexivity. Qed.
Lemma set_skip_key v c : set SKIP v c = put_skip SKIP v c.
Proof. reflexivity. Qed.
Lemma set_cases k v c c' e : set k v c = (c', e) ->
  (~ reserved k /\ c' = set_custom (custom_apply k v (custom c)) c /\ e = None) \/
  (k = LABELS /\ ((v = VNull /\ c' = set_labels None c /\ e = None) \/
                  (exists w s, v = VArr (map VStr w) /\ c' = set_labels (Some s) c /\ e = None /\ NoDup s /\ forall x, In x s <-> In x w) \/
                  (~ legal k v /\ c' = c /\ e = Some (ReservedKeyTypeMismatch k)))) \/
  (k = SKIP /\ ((v = VNull /\ c' = set_skip None c /\ e = None) \/ (exists b, v = VBool b /\ c' = set_skip (Some b) c /\ e = None) \/
                (~ legal k v /\ c' = c /\ e = Some (ReservedKeyTypeMismatch k)))) \/
  (~ legal k v /\ c' = c /\ (e = Some (ForbiddenReservedMutation k) \/ e = Some (UnknownReservedKey k))).
Proof.
  intros X. destruct (prefix "hive::" k) eqn:Pk.
  2:{ left. unfold set in X. rewrite Pk in X. cbn in X. injection X as <- <-. repeat split. rewrite <- reserved_iff. congruence. }
  right. assert (Rk : reserved k) by (apply reserved_iff; exact Pk). destruct (String.eqb_spec k LABELS) as [->|Nl].
  - left. split; [reflexivity|]. rewrite set_labels_key in X. unfold put_labels in X.
    assert (Bad : (forall w, v <> VArr (map VStr w)) -> v <> VNull -> ~ legal LABELS v).
    { intros A B L. inversion L; subst; [contradiction | eapply A; eauto | congruence]. }
    destruct v; try (right; right; injection X as <- <-; repeat split; auto; apply Bad; intros; discriminate; fail).
    + left. injection X as <- <-. auto.
    + destruct (strings l []) as [s|] eqn:S.
      * right; left. destruct (strings_inv _ _ _ S) as (w & ->). destruct (strings_some w []) as (s' & A & B & C). rewrite S in A. injection A as <-. injection X as <- <-.
        exists w, s. repeat split; auto; [apply B; constructor | intros I; apply C in I; destruct I as [I|[]]; exact I | intros I; apply C; auto].
      * right; right. injection X as <- <-. repeat split; auto. apply Bad; [|discriminate]. intros w Q. injection Q as ->. destruct (strings_some w []) as (s' & A & _). congruence.
  - right. destruct (String.eqb_spec k SKIP) as [->|Ns].
    + left. split; [reflexivity|]. rewrite set_skip_key in X. unfold put_skip in X.
      assert (Bad : (forall b, v <> VBool b) -> v <> VNull -> ~ legal SKIP v).
      { intros A B L. inversion L; subst; [contradiction | eapply A; eauto | congruence]. }
      destruct v; try (right; right; injection X as <- <-; repeat split; auto; apply Bad; intros; discriminate; fail).
      * left. injection X as <- <-. auto.
      * right; left. injection X as <- <-. eauto.
    + right. split; [intros L; inversion L; subst; try (apply Nl; reflexivity); try (apply Ns; reflexivity); contradiction|].
      unfold set in X. rewrite Pk in X. cbn [negb] in X. unfold set_reserved in X.
      destruct (String.eqb_spec k "hive::progressive_override::labels_to_override") as [->|]; [destruct (Nl eq_refl)|].
      destruct (String.eqb_spec k "hive::persisted_documents::skip_enforcement") as [->|]; [destruct (Ns eq_refl)|].
      repeat match type of X with context [if ?b then _ else _] => match b with prefix _ _ => destruct b | String.eqb _ _ => destruct b end end; injection X as <- <-; auto.
Qed.
Lemma set_legal k v c : (exists c', set k v c = (c', None)) <-> legal k v.
Proof.
  split.
  - intros (c' & X). destruct (set_cases _ _ _ _ _ X) as [(A & _)|[(-> & [(-> & _)|[(w & s & -> & _)|(_ & _ & B)]])|[(-> & [(-> & _)|[(b & -> & _)|(_ & _ & B)]])|(_ & _ & [B|B])]]]; try discriminate; try (constructor; auto; fail).
  - intros L. destruct (set k v c) as (c', [e|]) eqn:X; [|eauto]. exfalso.
    destruct (set_cases _ _ _ _ _ X) as [(_ & _ & B)|[(-> & [(_ & _ & B)|[(w & s & _ & _ & B & _)|(B & _)]])|[(-> & [(_ & _ & B)|[(b & _ & _ & B)|(B & _)]])|(B & _)]]]; try discriminate; contradiction.
Qed.
Lemma apply_accepts p : forall c, (exists c', apply_patch p c = (c', None)) <-> Forall (fun e => legal (fst e) (snd e)) p.
Proof.
  induction p as [|(k, v) p IH]; intros c; cbn; [split; [constructor | eauto]|]. pose proof (set_legal k v c) as L. destruct (set k v c) as (c1, [e|]).
  - split; [intros (c' & X); discriminate|]. intros F. inversion F; subst. apply L in H1. destruct H1 as (c' & X). discriminate.
  - rewrite IH. split; [intros F; constructor; [apply L; eauto | exact F] | intros F; inversion F; assumption].
Qed.
Lemma apply_fails p : forall c c' e, apply_patch p c = (c', Some e) ->
  exists before k v after, p = before ++ (k, v) :: after /\ apply_patch before c = (c', None) /\ ~ legal k v /\
    (e = UnknownReservedKey k \/ e = ForbiddenReservedMutation k \/ e = ReservedKeyTypeMismatch k).
Proof.
  induction p as [|(k, v) p IH]; intros c c' e; cbn; [discriminate|]. destruct (set k v c) as (c1, [e1|]) eqn:S; intros X.
  - injection X as <- <-. exists [], k, v, p. split; [reflexivity|].
    destruct (set_cases _ _ _ _ _ S) as [(_ & _ & B)|[(-> & [(_ & _ & B)|[(w & s & _ & _ & B & _)|(B & -> & Q)]])|[(-> & [(_ & _ & B)|[(b & _ & _ & B)|(B & -> & Q)]])|(B & -> & [Q|Q])]]];
      try discriminate; injection Q as ->; repeat split; auto.
  - destruct (IH _ _ _ X) as (be & k' & v' & af & -> & A & B). exists ((k, v) :: be), k', v', af. cbn. rewrite S. auto.
Qed.

(** ** What is changed *)
Lemma apply_snoc p k v : forall c, apply_patch (p ++ [(k, v)]) c = let '(c1, e) := apply_patch p c in match e with None => set k v c1 | Some _ => (c1, e) end.
Proof.
  induction p as [|(k', v') p IH]; intros c; cbn.
  - destruct (set k v c) as (c1, [e|]); reflexivity.
  - destruct (set k' v' c) as (c1, [e|]); [reflexivity | apply IH].
Qed.
Lemma given_snoc p k0 v0 k v : given (p ++ [(k0, v0)]) k v <-> (k = k0 /\ v = v0) \/ (k <> k0 /\ given p k v).
Proof.
  unfold given. split.
  - intros (be & af & X & N). destruct (exists_last (l := (k, v) :: af)) as (m & x & Q); [discriminate|]. rewrite Q in X. rewrite app_assoc in X. apply app_inj_tail in X. destruct X as (-> & <-).
    destruct m as [|y m]; [injection Q as <- <- ->; auto|]. injection Q as <- ->. right. rewrite map_app, in_app_iff in N. cbn in N. split; [intros ->; apply N; right; left; reflexivity|].
    exists be, m. split; [reflexivity | tauto].
  - intros [(-> & ->)|(N & be & af & -> & M)].
    + exists p, []. auto.
    + exists be, (af ++ [(k0, v0)]). rewrite <- app_assoc. split; [reflexivity|]. rewrite map_app, in_app_iff. cbn. intros [H|[H|[]]]; [contradiction | congruence].
Qed.
Lemma replace_keys k v l : map fst (replace k v l) = map fst l.
Proof. induction l as [|(k', x) l IH]; [reflexivity|]. cbn. destruct (String.eqb k' k); cbn; [|rewrite IH]; reflexivity. Qed.
Lemma replace_in k v l : NoDup (map fst l) -> In k (map fst l) -> forall k' v', In (k', v') (replace k v l) <-> (k' = k /\ v' = v) \/ (k' <> k /\ In (k', v') l).
Proof.
  induction l as [|(k1, x) l IH]; intros N I k' v'; [destruct I|]. cbn in *. inversion N; subst. destruct (String.eqb_spec k1 k) as [->|D]; cbn.
  - split.
    + intros [Q|Q]; [injection Q as <- <-; auto|]. right. split; [intros ->; apply H1; apply in_map_iff; exists (k, v'); auto | auto].
    + intros [(-> & ->)|(M & [Q|Q])]; auto. injection Q as <- <-. contradiction.
  - destruct I as [I|I]; [contradiction|]. rewrite (IH H2 I). split.
    + intros [Q|[Q|Q]]; [injection Q as <- <-; auto | auto | tauto].
    + intros [Q|(M & [Q|Q])]; auto.
Qed.
Lemma key_known k (l : list (string * value)) : existsb (fun e => String.eqb (fst e) k) l = true <-> In k (map fst l).
Proof. rewrite existsb_exists, in_map_iff. split; intros (x & A & B); exists x; [apply String.eqb_eq in B; auto | split; [auto | apply String.eqb_eq; auto]]. Qed.
Lemma custom_apply_ok k v l : NoDup (map fst l) -> NoDup (map fst (custom_apply k v l)) /\ (forall x, In x (map fst (custom_apply k v l)) -> x = k \/ In x (map fst l)) /\
  forall k' v', In (k', v') (custom_apply k v l) <-> (k' = k /\ v' = v /\ v <> VNull) \/ (k' <> k /\ In (k', v') l).
Proof.
  intros N.
  assert (Z : forall b : bool, b = existsb (fun e => String.eqb (fst e) k) l -> v <> VNull -> let r := if b then replace k v l else l ++ [(k, v)] in
    NoDup (map fst r) /\ (forall x, In x (map fst r) -> x = k \/ In x (map fst l)) /\ forall k' v', In (k', v') r <-> (k' = k /\ v' = v /\ v <> VNull) \/ (k' <> k /\ In (k', v') l)).
  { intros b Hb Nv. destruct b; symmetry in Hb; cbn.
    - apply key_known in Hb. rewrite replace_keys. repeat split; auto; intros Q; [apply replace_in in Q; auto; tauto | apply replace_in; auto; tauto].
    - assert (Nk : ~ In k (map fst l)) by (rewrite <- key_known; congruence). rewrite map_app. cbn. repeat split.
      + clear Hb. induction (map fst l) as [|a m IH]; cbn; [constructor; [intros [] | constructor]|]. inversion N; subst. constructor; [rewrite in_app_iff; cbn; intros [H|[H|[]]]; [contradiction | subst; apply Nk; left; reflexivity]|].
        apply IH; [assumption | intros I; apply Nk; right; exact I].
      + intros x. rewrite in_app_iff. cbn. intuition congruence.
      + rewrite in_app_iff. cbn. intros [Q|[Q|[]]]; [|injection Q as <- <-; auto]. right. split; [intros ->; apply Nk; apply in_map_iff; exists (k, v'); auto | exact Q].
      + rewrite in_app_iff. cbn. intros [(-> & -> & _)|(_ & Q)]; auto. }
  destruct v; try (apply (Z _ eq_refl); discriminate). cbn. split; [|split].
  - clear Z. induction l as [|(k1, x) l IH]; cbn; [constructor|]. inversion N; subst. destruct (String.eqb k1 k); cbn; [auto|]. constructor; [|auto].
    intros I. apply H1. apply in_map_iff in I. destruct I as (y & A & B). apply filter_In in B. apply in_map_iff. exists y. tauto.
  - intros x I. apply in_map_iff in I. destruct I as (y & <- & B). apply filter_In in B. right. apply in_map. apply B.
  - intros k' v'. rewrite filter_In. cbn. destruct (String.eqb_spec k' k) as [->|D]; cbn; split; try (intros (_ & Q); discriminate).
    + intros [(_ & _ & Q)|(Q & _)]; contradiction Q; reflexivity.
    + intros (Q & _). auto.
    + intros [(_ & _ & Q)|(_ & Q)]; [destruct (Q eq_refl) | auto].
Qed.
Lemma set_well k v c c' e : set k v c = (c', e) -> well_formed c -> well_formed c'.
Proof.
  intros X (N & W). destruct (set_cases _ _ _ _ _ X) as [(A & -> & _)|[(-> & [(_ & -> & _)|[(w & s & _ & -> & _)|(_ & -> & _)]])|[(-> & [(_ & -> & _)|[(b & _ & -> & _)|(_ & -> & _)]])|(_ & -> & _)]]];
    try (split; assumption; fail).
  destruct (custom_apply_ok k v (custom c) N) as (A1 & A2 & _). split; cbn; [exact A1|]. intros x I. destruct (A2 x I) as [->|I']; auto.
Qed.
Lemma apply_well p : forall c c' e, apply_patch p c = (c', e) -> well_formed c -> well_formed c'.
Proof.
  induction p as [|(k, v) p IH]; intros c c' e; cbn; [intros X; injection X as <- <-; auto|]. destruct (set k v c) as (c1, [e1|]) eqn:S; intros X W.
  - injection X as <- <-. eapply set_well; eauto.
  - eapply IH; eauto. eapply set_well; eauto.
Qed.
Definition changes (p : list (string * value)) (c c' : context) : Prop :=
  (forall k v, In (k, v) (custom c') <-> (~ reserved k /\ given p k v /\ v <> VNull) \/ (~ In k (map fst p) /\ In (k, v) (custom c))) /\
  (forall w, given p LABELS (VArr (map VStr w)) -> exists s, labels_to_override c' = Some s /\ NoDup s /\ forall x, In x s <-> In x w) /\
  (given p LABELS VNull -> labels_to_override c' = None) /\ (~ In LABELS (map fst p) -> labels_to_override c' = labels_to_override c) /\
  (forall b, given p SKIP (VBool b) -> skip_enforcement c' = Some b) /\
  (given p SKIP VNull -> skip_enforcement c' = None) /\ (~ In SKIP (map fst p) -> skip_enforcement c' = skip_enforcement c).
Lemma map_vstr a : forall b, map VStr a = map VStr b -> a = b.
Proof. induction a as [|x a IH]; intros [|y b] X; try discriminate; [reflexivity|]. injection X as -> X. rewrite (IH _ X). reflexivity. Qed.
Lemma labels_reserved : reserved LABELS.
Proof. apply reserved_iff. reflexivity. Qed.
Lemma skip_reserved : reserved SKIP.
Proof. apply reserved_iff. reflexivity. Qed.
Lemma apply_changes p : forall c c', well_formed c -> apply_patch p c = (c', None) -> changes p c c'.
Proof.
  induction p as [|(k0, v0) p IH] using rev_ind; intros c c' W X.
  - cbn in X. injection X as <-. assert (G : forall k v, ~ given [] k v) by (intros k v (be & af & Q & _); destruct be; discriminate).
    repeat split; auto; try (intros; exfalso; eapply G; eauto; fail). intros [(_ & Q & _)|(_ & Q)]; [destruct (G _ _ Q) | exact Q].
  - rewrite apply_snoc in X. destruct (apply_patch p c) as (c1, [e|]) eqn:A; [discriminate|]. specialize (IH c c1 W A). pose proof (apply_well _ _ _ _ A W) as W1.
    assert (Km : forall k, In k (map fst (p ++ [(k0, v0)])) <-> In k (map fst p) \/ k = k0) by (intros k; rewrite map_app, in_app_iff; cbn; intuition congruence).
    destruct IH as (I1 & I2 & I3 & I4 & I5 & I6 & I7). unfold changes.
    assert (Cu : reserved k0 -> custom c' = custom c1 -> forall k v, In (k, v) (custom c') <-> (~ reserved k /\ given (p ++ [(k0, v0)]) k v /\ v <> VNull) \/ (~ In k (map fst (p ++ [(k0, v0)])) /\ In (k, v) (custom c))).
    { intros R -> k v. assert (Rc : In (k, v) (custom c) -> ~ reserved k) by (intros Q; apply (proj2 W); apply in_map_iff; exists (k, v); auto). rewrite I1, given_snoc, Km. split.
      - intros [(Q1 & Q2 & Q3)|(Q1 & Q2)]; [left | right]; repeat split; auto; [right; split; [intros ->; contradiction | exact Q2] | intros [Q| ->]; [contradiction | exact (Rc Q2 R)]].
      - intros [(Q1 & [(-> & ->)|(Q2 & Q3)] & Q4)|(Q1 & Q2)]; [contradiction | left; auto | right; tauto]. }
    destruct (set_cases _ _ _ _ _ X) as [(Nr & -> & _)|[(-> & Y)|[(-> & Y)|(_ & _ & [Q|Q])]]]; try discriminate.
    + assert (Nl : k0 <> LABELS) by (intros ->; apply Nr, labels_reserved). assert (Ns : k0 <> SKIP) by (intros ->; apply Nr, skip_reserved).
      destruct (custom_apply_ok k0 v0 (custom c1) (proj1 W1)) as (_ & _ & B). cbn [custom labels_to_override skip_enforcement set_custom].
      split; [|repeat split].
      * intros k v. rewrite B, I1, given_snoc, Km. split.
        -- intros [(-> & -> & Q)|(D & [(Q1 & Q2 & Q3)|(Q1 & Q2)])]; [left; auto | left; auto 6 | right; split; [intros [Q|Q]; contradiction | exact Q2]].
        -- intros [(Q1 & [(-> & ->)|(Q2 & Q3)] & Q4)|(Q1 & Q2)]; [left; auto | right; auto | right; split; [intros ->; apply Q1; auto | right; tauto]].
      * intros w G. apply given_snoc in G. destruct G as [(G & _)|(_ & G)]; [congruence | auto].
      * intros G. apply given_snoc in G. destruct G as [(G & _)|(_ & G)]; [congruence | auto].
      * intros G. apply I4. intros Q. apply G, Km. auto.
      * intros b G. apply given_snoc in G. destruct G as [(G & _)|(_ & G)]; [congruence | auto].
      * intros G. apply given_snoc in G. destruct G as [(G & _)|(_ & G)]; [congruence | auto].
      * intros G. apply I7. intros Q. apply G, Km. auto.
    + assert (Ns : SKIP <> LABELS) by discriminate.
      assert (E : skip_enforcement c' = skip_enforcement c1 /\ custom c' = custom c1) by (destruct Y as [(_ & -> & _)|[(w & s & _ & -> & _)|(_ & _ & Q)]]; [split; reflexivity | split; reflexivity | discriminate]).
      destruct E as (E1 & E2). split; [apply Cu; [apply labels_reserved | exact E2]|]. rewrite E1. repeat split.
      * intros w G. apply given_snoc in G. destruct G as [(_ & <-)|(G & _)]; [|contradiction]. destruct Y as [(Q & _)|[(w' & s & Q & -> & _ & Y1 & Y2)|(_ & _ & Q)]]; try discriminate.
        injection Q as Q. apply map_vstr in Q. subst w'. exists s. auto.
      * intros G. apply given_snoc in G. destruct G as [(_ & <-)|(G & _)]; [|contradiction]. destruct Y as [(_ & -> & _)|[(w' & s & Q & _)|(_ & _ & Q)]]; [reflexivity | discriminate | discriminate].
      * intros G. destruct G. apply Km. auto.
      * intros b G. apply given_snoc in G. destruct G as [(G & _)|(_ & G)]; [destruct (Ns G) | auto].
      * intros G. apply given_snoc in G. destruct G as [(G & _)|(_ & G)]; [destruct (Ns G) | auto].
      * intros G. apply I7. intros Q. apply G, Km. auto.
    + assert (Ns : LABELS <> SKIP) by discriminate.
      assert (E : labels_to_override c' = labels_to_override c1 /\ custom c' = custom c1) by (destruct Y as [(_ & -> & _)|[(b & _ & -> & _)|(_ & _ & Q)]]; [split; reflexivity | split; reflexivity | discriminate]).
      destruct E as (E1 & E2). split; [apply Cu; [apply skip_reserved | exact E2]|]. rewrite E1. repeat split.
      * intros w G. apply given_snoc in G. destruct G as [(G & _)|(_ & G)]; [destruct (Ns G) | auto].
      * intros G. apply given_snoc in G. destruct G as [(G & _)|(_ & G)]; [destruct (Ns G) | auto].
      * intros G. apply I4. intros Q. apply G, Km. auto.
      * intros b G. apply given_snoc in G. destruct G as [(_ & <-)|(G & _)]; [|contradiction]. destruct Y as [(Q & _)|[(b' & Q & -> & _)|(_ & _ & Q)]]; try discriminate. injection Q as <-. reflexivity.
      * intros G. apply given_snoc in G. destruct G as [(_ & <-)|(G & _)]; [|contradiction]. destruct Y as [(_ & -> & _)|[(b' & Q & _)|(_ & _ & Q)]]; [reflexivity | discriminate | discriminate].
      * intros G. destruct G. apply Km. auto.
Qed.

(** ** What is written *)
Section Write.
  Variable iter : list string -> list string.
  Definition table (c : context) : list (string * option value) :=
    [("hive::operation::name", option_map VStr (op_name c)); ("hive::operation::kind", option_map VStr (op_kind c));
     ("hive::progressive_override::unresolved_labels", option_map (of_set iter) (unresolved_labels c)); ("hive::progressive_override::labels_to_override", option_map (of_set iter) (labels_to_override c));
     ("hive::authentication::jwt_scopes", option_map (of_set iter) (jwt_scopes c)); ("hive::authentication::jwt_status", option_map VBool (jwt_status c));
     ("hive::telemetry::client_name", option_map VStr (client_name c)); ("hive::telemetry::client_version", option_map VStr (client_version c));
     ("hive::persisted_documents::skip_enforcement", option_map VBool (skip_enforcement c))].
  Lemma opt_in key o k v : In (k, v) (opt key o) <-> k = key /\ o = Some v.
  Proof. destruct o; cbn; [|intuition discriminate]. intuition congruence. Qed.
  Lemma write_table c : write_all iter c = flat_map (fun e => opt (fst e) (snd e)) (table c) ++ custom c.
  Proof. unfold write_all, operation_all, override_all, authentication_all, telemetry_all, documents_all. cbn [flat_map table fst snd]. rewrite <- !app_assoc. reflexivity. Qed.
  Lemma mapped {A} (f : A -> value) o v : option_map f o = Some v <-> exists x, o = Some x /\ v = f x.
  Proof. destruct o; cbn; split; [intros X; injection X as <-; eauto | intros (x & X & ->); injection X as ->; reflexivity | discriminate | intros (x & X & _); discriminate]. Qed.
  Lemma holds_table c k v : holds iter c k v <-> In (k, v) (flat_map (fun e => opt (fst e) (snd e)) (table c)) \/ In (k, v) (custom c).
  Proof. unfold holds. cbn [flat_map table fst snd]. rewrite !in_app_iff, !opt_in, !mapped. unfold of_set. cbn [In]. tauto. Qed.
  Lemma write_all_in c k v : In (k, v) (write_all iter c) <-> holds iter c k v.
  Proof. rewrite write_table, in_app_iff, holds_table. reflexivity. Qed.
  Lemma opts_keys (l : list (string * option value)) k : In k (map fst (flat_map (fun e => opt (fst e) (snd e)) l)) -> In k (map fst l).
  Proof. intros I. apply in_map_iff in I. destruct I as ((k', v) & <- & I). apply in_flat_map in I. destruct I as (e & I & Q). apply opt_in in Q. destruct Q as (-> & _). cbn. apply in_map. exact I. Qed.
  Lemma opts_nodup (l : list (string * option value)) : NoDup (map fst l) -> NoDup (map fst (flat_map (fun e => opt (fst e) (snd e)) l)).
  Proof.
    induction l as [|(k, o) l IH]; intros N; [constructor|]. cbn in *. inversion N; subst. destruct o; cbn; [|auto]. constructor; [intros I; apply H1, opts_keys, I | auto].
  Qed.
  Lemma nodup_app {A} (a b : list A) : NoDup a -> NoDup b -> (forall x, In x a -> In x b -> False) -> NoDup (a ++ b).
  Proof. induction a as [|x a IH]; intros Na Nb D; [exact Nb|]. inversion Na; subst. cbn. constructor; [rewrite in_app_iff; intros [H|H]; [contradiction | eapply D; [left; reflexivity | exact H]] | apply IH; auto; intros y Y Z; eapply D; [right; exact Y | exact Z]]. Qed.
  Lemma table_reserved c k : In k (map fst (table c)) -> reserved k.
  Proof. intros I. apply reserved_iff. cbn in I. repeat destruct I as [<-|I]; try reflexivity. destruct I. Qed.
  Lemma table_nodup c : NoDup (map fst (table c)).
  Proof. cbn. repeat (constructor; [cbn; intuition discriminate|]). constructor. Qed.
  Lemma write_all_nodup c : well_formed c -> NoDup (map fst (write_all iter c)).
  Proof.
    intros (N & W). rewrite write_table, map_app. apply nodup_app; [apply opts_nodup, table_nodup | exact N|]. intros x A B. apply (W x B). apply (table_reserved c). apply opts_keys, A.
  Qed.
  Lemma get_in k l v : NoDup (map fst l) -> custom_get k l = Some v <-> In (k, v) l.
  Proof.
    unfold custom_get. induction l as [|(k1, x) l IH]; intros N; cbn; [split; [discriminate | intros []]|]. cbn in N. inversion N; subst. destruct (String.eqb_spec k1 k) as [->|D]; cbn.
    - split; [intros X; injection X as ->; auto|]. intros [X|X]; [injection X as ->; reflexivity|]. destruct H1. apply in_map_iff. exists (k, v). auto.
    - rewrite (IH H2). split; [auto|]. intros [X|X]; [congruence | exact X].
  Qed.
  Lemma one_in key l k v : NoDup (map fst l) -> In (k, v) (one key l) <-> k = key /\ In (key, Some v) l.
  Proof.
    unfold one. intros N. induction l as [|(k1, o) l IH]; cbn; [tauto|]. cbn in N. inversion N; subst. destruct (String.eqb_spec k1 key) as [->|D]; cbn.
    - rewrite opt_in. split; [intros (-> & ->); auto|]. intros (-> & [Q|Q]); [injection Q as ->; auto|]. destruct H1. apply in_map_iff. exists (key, Some v). auto.
    - rewrite (IH H2). split; [tauto|]. intros (-> & [Q|Q]); [congruence | auto].
  Qed.
  Lemma domain_in key k v l l1 l2 : NoDup (map fst l) -> (forall e, In e (l1 ++ l2) -> fst e <> key) ->
    In (k, v) (one key l) <-> k = key /\ In (key, Some v) (l1 ++ l ++ l2).
  Proof.
    intros N D. rewrite (one_in key l k v N), !in_app_iff. split; [tauto|]. intros (-> & [Q|[Q|Q]]); [exfalso; apply (D _ (proj2 (in_app_iff _ _ _) (or_introl Q))); reflexivity | auto|].
    exfalso. apply (D _ (proj2 (in_app_iff _ _ _) (or_intror Q))). reflexivity.
  Qed.
  Lemma write_key_in c key k v : well_formed c -> In (k, v) (write_key iter c key) <-> k = key /\ holds iter c key v.
  Proof.
    intros (N & W).
    assert (Rs : prefix "hive::" key = true -> (k = key /\ holds iter c key v <-> k = key /\ In (key, Some v) (table c))).
    { intros Pk. rewrite holds_table, in_flat_map. split; intros (-> & Q); (split; [reflexivity|]).
      - destruct Q as [((k1, o) & I & Q)|Q]; [cbn in Q; apply opt_in in Q; destruct Q as (-> & ->); exact I|]. exfalso. apply (W key); [apply in_map_iff; exists (key, v); auto | apply reserved_iff; exact Pk].
      - left. exists (key, Some v). split; [exact Q | cbn; auto]. }
    unfold write_key, write_reserved.
    destruct (prefix "hive::operation::" key) eqn:P1.
    { rewrite (Rs (longer "hive::" _ _ P1)). apply (domain_in key k v (firstn 2 (skipn 0 (table c))) [] (skipn 2 (table c))); [cbn; repeat (constructor; [cbn; intuition discriminate|]); constructor|].
      intros e I <-. cbn in I. repeat destruct I as [<-|I]; try discriminate P1. destruct I. }
    destruct (prefix "hive::progressive_override::" key) eqn:P2.
    { rewrite (Rs (longer "hive::" _ _ P2)). apply (domain_in key k v (firstn 2 (skipn 2 (table c))) (firstn 2 (table c)) (skipn 4 (table c))); [cbn; repeat (constructor; [cbn; intuition discriminate|]); constructor|].
      intros e I <-. cbn in I. repeat destruct I as [<-|I]; try discriminate P2. destruct I. }
    destruct (prefix "hive::authentication::" key) eqn:P3.
    { rewrite (Rs (longer "hive::" _ _ P3)). apply (domain_in key k v (firstn 2 (skipn 4 (table c))) (firstn 4 (table c)) (skipn 6 (table c))); [cbn; repeat (constructor; [cbn; intuition discriminate|]); constructor|].
      intros e I <-. cbn in I. repeat destruct I as [<-|I]; try discriminate P3. destruct I. }
    destruct (prefix "hive::telemetry::" key) eqn:P4.
    { rewrite (Rs (longer "hive::" _ _ P4)). apply (domain_in key k v (firstn 2 (skipn 6 (table c))) (firstn 6 (table c)) (skipn 8 (table c))); [cbn; repeat (constructor; [cbn; intuition discriminate|]); constructor|].
      intros e I <-. cbn in I. repeat destruct I as [<-|I]; try discriminate P4. destruct I. }
    destruct (prefix "hive::persisted_documents::" key) eqn:P5.
    { rewrite (Rs (longer "hive::" _ _ P5)). apply (domain_in key k v (firstn 1 (skipn 8 (table c))) (firstn 8 (table c)) []); [cbn; repeat (constructor; [cbn; intuition discriminate|]); constructor|].
      intros e I <-. cbn in I. repeat destruct I as [<-|I]; try discriminate P5. destruct I. }
    rewrite opt_in, (get_in _ _ _ N), holds_table. split; [tauto|]. intros (-> & [Q|Q]); [|auto]. exfalso. apply in_flat_map in Q. destruct Q as ((k1, o) & I & Q). cbn in Q. apply opt_in in Q. destruct Q as (<- & ->).
    cbn in I. repeat destruct I as [I|I]; try (injection I as <- _; discriminate). destruct I.
  Qed.
  Lemma opt_short k o : List.length (opt k o) <= 1.
  Proof. destruct o; cbn; lia. Qed.
  Lemma write_key_short c k : List.length (write_key iter c k) <= 1.
  Proof.
    assert (O : forall l, List.length (one k l) <= 1) by (intros l; unfold one; destruct (find _ l); [apply opt_short | cbn; lia]).
    unfold write_key, write_reserved. repeat match goal with |- context [if prefix ?a ?b then _ else _] => destruct (prefix a b) end; try apply O. apply opt_short.
  Qed.
  Lemma selected_in c keys k v : well_formed c -> In (k, v) (write_selected iter false keys c) <-> In k keys /\ holds iter c k v.
  Proof.
    intros W. cbn. rewrite in_flat_map. split.
    - intros (x & I & Q). apply (write_key_in _ _ _ _ W) in Q. destruct Q as (-> & Q). auto.
    - intros (I & Q). exists k. split; [exact I|]. apply (write_key_in _ _ _ _ W). auto.
  Qed.
  Lemma selected_nodup c keys : well_formed c -> NoDup keys -> NoDup (map fst (write_selected iter false keys c)).
  Proof.
    intros W. cbn. induction keys as [|k keys IH]; intros N; [constructor|]. inversion N; subst. cbn. rewrite map_app. apply nodup_app; auto.
    - pose proof (write_key_short c k) as L. destruct (write_key iter c k) as [|a [|b l]]; cbn in *; [constructor | constructor; [intros [] | constructor] | lia].
    - intros x A B. apply in_map_iff in A. destruct A as ((k1, v1) & <- & A). apply (write_key_in _ _ _ _ W) in A. destruct A as (-> & _).
      apply in_map_iff in B. destruct B as ((k2, v2) & Q & B). cbn in Q. subst k2. apply in_flat_map in B. destruct B as (y & Y & B). apply (write_key_in _ _ _ _ W) in B. destruct B as (-> & _). contradiction.
  Qed.
End Write.
