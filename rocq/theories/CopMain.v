(** Proofs about the run of a stage. *)
From Coq Require Import List Bool NArith Permutation Lia String.
From Verif Require Import JsonModel CtxModel CopModel CopSpec CopProofs.
Import ListNotations.
Local Open Scope string_scope.
Local Open Scope list_scope.

Section Run.
  Variable header_name : string -> option string.
  Variable header_value : string -> bool.
  Variable read_patch : string -> option (list (string * value)).
  Variable read_gbody : string -> option gbody.
  Variable blank : string -> bool.
  Local Notation execute := (execute header_name header_value read_patch read_gbody blank).
  Local Notation mutate := (mutate_body read_gbody blank).
  Local Notation mutations := (apply_mutations header_name header_value read_gbody blank).

  Lemma mutate_headers s b m : m_headers (fst (mutate s b m)) = m_headers m.
  Proof. destruct s; cbn; auto. destruct (read_gbody b) as [g|]; [|reflexivity]. destruct (apply_gbody blank g (m_params m)); reflexivity. Qed.
  Lemma mutate_failed s b m m' f : mutate s b m = (m', Some f) -> m' = m.
  Proof. destruct s; cbn; try discriminate; [|congruence]. destruct (read_gbody b) as [g|]; [|congruence]. destruct (apply_gbody blank g (m_params m)); [discriminate | congruence]. Qed.
  Lemma mutate_done s b m m' : mutate s b m = (m', None) -> body_put read_gbody blank s b m m'.
  Proof.
    destruct s; cbn; intros X; try discriminate X.
    - injection X as <-. cbn. destruct (String.eqb_spec b "") as [->|]; repeat split; auto; intros; contradiction.
    - injection X as <-. cbn. destruct (String.eqb_spec b "") as [->|]; repeat split; auto; intros; contradiction.
    - destruct (read_gbody b) as [g|]; [|discriminate]. unfold apply_gbody in X. destruct (g_query g) as [q|] eqn:Q; [destruct (blank q) eqn:B; [discriminate|]|]; injection X as <-; cbn; (split; [reflexivity|]); exists g; rewrite Q; (split; [reflexivity|]);
        (split; [intros q' E; try discriminate; injection E as <-; auto|]); (split; [intros E; try discriminate; auto|]); repeat split; try (intros x E; rewrite E; reflexivity); intros E; rewrite E; reflexivity.
    - injection X as <-. cbn. auto.
  Qed.
  Lemma mutate_other s b m : s <> GraphqlRequest -> m_params (fst (mutate s b m)) = m_params m.
  Proof. destruct s; cbn; auto; intros N; contradiction N; reflexivity. Qed.

  Lemma mutations_failed s p m m' f : mutations s p m = (m', Some f) -> m_body m' = m_body m /\ m_params m' = m_params m.
  Proof.
    unfold apply_mutations. destruct (y_headers p) as [l|].
    - destruct (replace_into header_name header_value l (m_headers m)) as (h, [e|]).
      + intros X. injection X as <- <-. auto.
      + destruct (y_body p) as [b|]; [|discriminate]. intros X. apply mutate_failed in X. subst m'. auto.
    - destruct (y_body p) as [b|]; [|discriminate]. intros X. apply mutate_failed in X. subst m'. auto.
  Qed.
  Lemma mutations_other s p m m' e : s <> GraphqlRequest -> mutations s p m = (m', e) -> m_params m' = m_params m.
  Proof.
    intros N. unfold apply_mutations. destruct (y_headers p) as [l|].
    - destruct (replace_into header_name header_value l (m_headers m)) as (h, [e'|]); [intros X; injection X as <- <-; auto|]. destruct (y_body p) as [b|]; [|intros X; injection X as <- <-; auto].
      intros X. pose proof (mutate_other s b (set_headers h m) N) as M. rewrite X in M. exact M.
    - destruct (y_body p) as [b|]; [|intros X; injection X as <- <-; auto]. intros X. pose proof (mutate_other s b m N) as M. rewrite X in M. exact M.
  Qed.
  Definition mutated (s : stage) (p : payload) (m m' : message) : Prop :=
    match y_headers p with
    | None => m_headers m' = m_headers m
    | Some l => sound header_name header_value l /\ forall n, (hop n -> values n (m_headers m') = values n (m_headers m)) /\ (~ hop n -> values n (m_headers m') = given_values header_name l n)
    end /\
    match y_body p with None => m_body m' = m_body m /\ m_params m' = m_params m | Some b => body_put read_gbody blank s b m m' end.
  Lemma put_same s b h m m' : body_put read_gbody blank s b (set_headers h m) m' -> body_put read_gbody blank s b m m'.
  Proof. destruct s; auto. Qed.
  Lemma mutations_done s p m m' : mutations s p m = (m', None) -> mutated s p m m'.
  Proof.
    unfold apply_mutations, mutated. destruct (y_headers p) as [l|].
    - pose proof (replace_ok header_name header_value l (m_headers m)) as O. pose proof (replaced header_name header_value l (m_headers m)) as R. destruct (replace_into header_name header_value l (m_headers m)) as (h, [e|]); [discriminate|].
      specialize (R h eq_refl). assert (S : sound header_name header_value l) by (apply O; reflexivity). destruct (y_body p) as [b|].
      + intros X. pose proof (mutate_headers s b (set_headers h m)) as H. rewrite X in H. cbn in H. rewrite H. split; [split; [exact S | exact R]|]. eapply put_same. apply mutate_done. exact X.
      + intros X. injection X as <-. cbn. auto.
    - destruct (y_body p) as [b|].
      + intros X. pose proof (mutate_headers s b m) as H. rewrite X in H. split; [exact H|]. apply mutate_done. exact X.
      + intros X. injection X as <-. auto.
  Qed.

  Lemma broke s runs a m c m' c' r : execute s runs a m c = (m', c', Broke r) -> m' = m /\ c' = c /\ runs = Some true /\
    exists st p, a = Answer st (Some p) /\ y_control p = Break (r_status r) /\ r_body r = y_body p /\
      match y_headers p with
      | None => r_headers r = []
      | Some l => forall n, (hop n -> values n (r_headers r) = []) /\ (~ hop n -> values n (r_headers r) = match rev (given_values header_name l n) with [] => [] | v :: _ => [v] end)
      end.
  Proof.
    unfold CopModel.execute. destruct runs as [[]|]; try discriminate. destruct a as [|st [p|]]; try discriminate; destruct (success st); cbn [negb]; try discriminate.
    destruct (y_version p =? 1)%N; cbn [negb]; try discriminate. unfold break_output. destruct (y_control p) as [|k] eqn:K.
    - destruct (y_context p) as [t|]; [destruct (read_patch t) as [l|]; [destruct (apply_patch l c) as (c1, [e|]); cbn|]|]; try discriminate; destruct (mutations s p m) as (m1, [e1|]); discriminate.
    - destruct (y_headers p) as [l|] eqn:Y.
      + pose proof (answered header_name header_value l) as A. destruct (apply_to_response header_name header_value l) as (h, [e|]); [discriminate|]. intros X. injection X as <- <- <-. repeat split; auto. exists st, p. cbn. rewrite Y. repeat split; auto; apply (A h eq_refl).
      + intros X. injection X as <- <- <-. repeat split; auto. exists st, p. cbn. rewrite Y. auto.
  Qed.
  Lemma continued s runs a m c m' c' d : execute s runs a m c = (m', c', Continued d) ->
    (runs = Some false /\ m' = m /\ c' = c /\ d = mkperformed false false false) \/
    (runs = Some true /\ exists st p, a = Answer st (Some p) /\ (200 <= st < 300)%N /\ y_version p = 1%N /\ y_control p = Continue /\
      match y_context p with None => c' = c | Some t => exists l, read_patch t = Some l /\ apply_patch l c = (c', None) end /\ mutated s p m m' /\
      (d_body d = true <-> y_body p <> None) /\ (d_headers d = true <-> y_headers p <> None) /\ (d_context d = true <-> y_context p <> None)).
  Proof.
    unfold CopModel.execute. destruct runs as [[]|]; try discriminate.
    2:{ intros X. injection X as <- <- <-. auto. }
    destruct a as [|st [p|]]; try discriminate; destruct (success st) eqn:S; cbn [negb]; try discriminate.
    destruct (N.eqb_spec (y_version p) 1) as [V|V]; cbn [negb]; try discriminate. unfold break_output. destruct (y_control p) as [|k] eqn:K.
    2:{ destruct (match y_headers p with Some l => apply_to_response header_name header_value l | None => ([], None) end) as (h, [e|]); discriminate. }
    assert (T : forall c1, (let '(m1, e) := mutations s p m in match e with Some f => (m1, c1, Failed f) | None => (m1, c1, Continued (mkperformed (is_some (y_body p)) (is_some (y_headers p)) (is_some (y_context p)))) end) = (m', c', Continued d) ->
      c' = c1 /\ mutated s p m m' /\ (d_body d = true <-> y_body p <> None) /\ (d_headers d = true <-> y_headers p <> None) /\ (d_context d = true <-> y_context p <> None)).
    { intros c1. pose proof (mutations_done s p m) as M. destruct (mutations s p m) as (m1, [e|]); [discriminate|]. intros X. injection X as <- <- <-. split; [reflexivity|]. split; [apply M; reflexivity|]. cbn.
      assert (O : forall A (o : option A), is_some o = true <-> o <> None) by (intros A [x|]; cbn; split; congruence). auto. }
    unfold success in S. apply andb_true_iff in S. destruct S as (S1 & S2). apply N.leb_le in S1. apply N.ltb_lt in S2.
    intros X. right. split; [reflexivity|]. exists st, p. split; [reflexivity|]. split; [auto|]. split; [exact V|]. split; [exact K|].
    destruct (y_context p) as [t|].
    - destruct (read_patch t) as [l|]; [|discriminate]. destruct (apply_patch l c) as (c1, [e|]) eqn:A; [discriminate|]. apply (T c1) in X. destruct X as (-> & X). split; [exists l; auto | exact X].
    - apply (T c) in X. exact X.
  Qed.
  Lemma failed s runs a m c m' c' f : execute s runs a m c = (m', c', Failed f) -> m_body m' = m_body m /\ m_params m' = m_params m.
  Proof.
    unfold CopModel.execute. destruct runs as [[]|]; try discriminate; [|intros X; injection X as <- _ _; auto].
    destruct a as [|st [p|]]; try (destruct (success st)); cbn [negb]; try (intros X; injection X as <- _ _; auto; fail).
    destruct (y_version p =? 1)%N; cbn [negb]; try (intros X; injection X as <- _ _; auto; fail). destruct (break_output header_name header_value p) as [[r|e]|]; try discriminate; try (intros X; injection X as <- _ _; auto; fail).
    destruct (match y_context p with None => (c, None) | Some t => match read_patch t with None => (c, Some InvalidContext) | Some l => let '(c1, e) := apply_patch l c in (c1, option_map ContextError e) end end) as (c1, [e|]); [intros X; injection X as <- _ _; auto|].
    pose proof (mutations_failed s p m) as M. destruct (mutations s p m) as (m1, [e1|]); [|discriminate]. intros X. injection X as <- _ _. eapply M. reflexivity.
  Qed.
  Lemma params_kept s runs a m c m' c' o : s <> GraphqlRequest -> execute s runs a m c = (m', c', o) -> m_params m' = m_params m.
  Proof.
    intros N. unfold CopModel.execute. destruct runs as [[]|]; try (intros X; injection X as <- _ _; auto; fail).
    destruct a as [|st [p|]]; try (destruct (success st)); cbn [negb]; try (intros X; injection X as <- _ _; auto; fail).
    destruct (y_version p =? 1)%N; cbn [negb]; try (intros X; injection X as <- _ _; auto; fail). destruct (break_output header_name header_value p) as [[r|e]|]; try (intros X; injection X as <- _ _; auto; fail).
    destruct (match y_context p with None => (c, None) | Some t => match read_patch t with None => (c, Some InvalidContext) | Some l => let '(c1, e) := apply_patch l c in (c1, option_map ContextError e) end end) as (c1, [e|]); [intros X; injection X as <- _ _; auto|].
    pose proof (mutations_other s p m) as M. destruct (mutations s p m) as (m1, [e1|]); intros X; injection X as <- _ _; eapply M; eauto.
  Qed.
  Lemma headers_accepted s st p m c : (200 <= st < 300)%N -> y_version p = 1%N -> y_control p = Continue -> y_context p = None -> y_body p = None ->
    ((exists m' c' d, execute s (Some true) (Answer st (Some p)) m c = (m', c', Continued d)) <-> forall l, y_headers p = Some l -> sound header_name header_value l).
  Proof.
    intros (A & B) V K X Y. unfold CopModel.execute, success. apply N.leb_le in A. apply N.ltb_lt in B. rewrite A, B, V. cbn [negb andb N.eqb Pos.eqb]. unfold break_output. rewrite K, X. unfold apply_mutations. rewrite Y.
    destruct (y_headers p) as [l|].
    - pose proof (replace_ok header_name header_value l (m_headers m)) as O. destruct (replace_into header_name header_value l (m_headers m)) as (h, [e|]); cbn in O.
      + split; [intros (m' & c' & d & Q); discriminate|]. intros S. pose proof (proj2 O (S l eq_refl)) as Z. discriminate.
      + split; [intros _ l' Q; injection Q as <-; apply O; reflexivity | intros _; eauto].
    - split; [intros _ l Q; discriminate | intros _; eauto].
  Qed.
End Run.
