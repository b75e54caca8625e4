(** All coordinates of a document. *)
From Coq Require Import String List Bool Arith Lia.
From Verif Require Import Ast ConsumerModel IntroModel CondModel NormModel NormProofs WalkModel CoordModel CoordSpec CoordProofs CoordMain.
Import ListNotations.
Local Open Scope string_scope.
Local Open Scope list_scope.

Section Final.
  Variable sch : list definition.
  (** The walk is well bracketed *)
  Lemma balanced_neutral l : Forall (fun x : call => neutral (snd x)) l -> balanced l.
  Proof. induction 1 as [|[c e] l N F IH]; constructor; assumption. Qed.
  Lemma forall_flat {A} (P : call -> Prop) (f : A -> list call) l : (forall x, In x l -> Forall P (f x)) -> Forall P (flat_map f l).
  Proof. induction l as [|x l IH]; intros H; cbn; [constructor|]. apply Forall_app. split; [apply H; left; reflexivity | apply IH; intros y I; apply H; right; exact I]. Qed.
  Lemma walk_value_neutral v : forall c, Forall (fun x : call => neutral (snd x)) (walk_value sch c v).
  Proof.
    induction v as [n|z|b|s|b| |s|l IH|o IH] using gvalue_ind'; intros c; cbn [walk_value]; try (repeat constructor; fail).
    - constructor; [exact Logic.I|]. generalize (with_input c match c_input c with Some (TList t) => Some t | _ => None end false). intros c'. induction IH as [|x l X F IL]; [constructor|]. apply Forall_app. split; [apply X | apply IL].
    - constructor; [exact Logic.I|]. induction IH as [|[k x] o X F IL]; [constructor|]. apply Forall_app. split; [apply X | apply IL].
  Qed.
  Lemma walk_arguments_neutral c defs l : Forall (fun x : call => neutral (snd x)) (walk_arguments sch c defs l).
  Proof. apply forall_flat. intros a _. unfold walk_argument. constructor; [exact Logic.I | apply walk_value_neutral]. Qed.
  Lemma walk_directives_neutral c l : Forall (fun x : call => neutral (snd x)) (walk_directives sch c l).
  Proof. apply forall_flat. intros d _. unfold walk_directive. constructor; [exact Logic.I|]. apply Forall_app. split; [apply walk_arguments_neutral | repeat constructor]. Qed.
  Lemma balanced_snoc l c e : balanced l -> neutral e -> balanced (l ++ [(c, e)]).
  Proof. intros B N. apply balanced_app; [exact B | constructor; [exact N | constructor]]. Qed.
  Lemma walk_selection_balanced s : forall c, balanced (walk_selection sch c s).
  Proof.
    induction s as [al n args ds sub IH|n ds|tc ds sub IH] using nsel_ind'; intros c; cbn [walk_selection].
    - set (c' := with_type c _). rewrite !app_assoc. apply bal_field; [|constructor]. apply balanced_app.
      + apply balanced_app; apply balanced_neutral; [apply walk_arguments_neutral | apply walk_directives_neutral].
      + generalize (with_parent sch c'). intros c2. induction IH as [|x l X F IL]; [constructor|]. apply balanced_app; [apply X | apply IL].
    - constructor; [exact Logic.I|]. apply balanced_snoc; [apply balanced_neutral, walk_directives_neutral | exact Logic.I].
    - constructor; [exact Logic.I|]. apply balanced_app; [apply balanced_neutral, walk_directives_neutral|]. apply balanced_snoc; [|exact Logic.I].
      generalize (with_parent sch match tc with Some t => with_type c (Some (TNamed t)) | None => c end). intros c2. induction IH as [|x l X F IL]; [constructor|]. apply balanced_app; [apply X | apply IL].
  Qed.
  Lemma walk_set_balanced c l : balanced (walk_set sch c l).
  Proof. unfold walk_set. induction l as [|x l IH]; [constructor|]. cbn. apply balanced_app; [apply walk_selection_balanced | exact IH]. Qed.
  Lemma walk_definition_balanced d l : walk_definition sch d = Some l -> balanced l.
  Proof.
    destruct d as [n tc ds set|k n ds vs set]; cbn [walk_definition]; [|destruct (root_of sch k); [|discriminate]]; intros E; injection E as <-; constructor; try exact Logic.I.
    - apply balanced_app; [apply balanced_neutral, walk_directives_neutral|]. apply balanced_snoc; [apply walk_set_balanced | exact Logic.I].
    - apply balanced_app; [apply balanced_neutral, walk_directives_neutral|]. apply balanced_app; [|apply balanced_snoc; [apply walk_set_balanced | exact Logic.I]].
      apply balanced_neutral. apply forall_flat. intros v _. unfold walk_variable. constructor; [exact Logic.I|]. destruct (vd_default v); [apply walk_value_neutral | constructor].
  Qed.
  Lemma walk_definitions_balanced doc : forall l, walk_definitions sch doc = Some l -> balanced l.
  Proof.
    induction doc as [|d doc IH]; cbn; intros l E; [injection E as <-; constructor|]. destruct (walk_definition sch d) as [a|] eqn:A; [|discriminate]. destruct (walk_definitions sch doc) as [b|]; [|discriminate].
    injection E as <-. apply balanced_app; [apply (walk_definition_balanced d); exact A | apply IH; reflexivity].
  Qed.
  Lemma walk_balanced doc l : walk sch doc = Some l -> balanced l.
  Proof.
    unfold walk. destruct (walk_definitions sch doc) as [m|] eqn:E; [|discriminate]. intros X. injection X as <-. constructor; [exact Logic.I|]. apply balanced_snoc; [apply (walk_definitions_balanced doc); exact E | exact Logic.I].
  Qed.

  (** A corrupted state stays so *)
  Lemma mark_corrupted x s : corrupted (mark_as_used x s) = corrupted s.
  Proof. unfold mark_as_used. destruct (take x (provided s)). reflexivity. Qed.
  Lemma entry_corrupted m fs e s : exists s', on_entry sch m fs e s = Some s' /\ corrupted s' = corrupted s.
  Proof.
    unfold on_entry. destruct (input_by_name fs (fst e)) as [f|]; [|exists s; auto].
    set (s2 := insert _ (mark_as_used _ _)). assert (C : corrupted s2 = corrupted s) by (unfold s2; cbn; rewrite mark_corrupted; reflexivity). clearbody s2.
    destruct (snd e); try (exists s2; split; [reflexivity | exact C]). destruct (type_by_name sch _) as [[]|]; try (exists s2; split; [reflexivity | exact C]).
    match goal with |- context [nested sch ?a ?b ?c] => destruct (nested sch a b c) as [[v l]|] eqn:E end; [|destruct (nested_ends sch _ _ _ (missing_enough sch _) E)]. eexists. split; [reflexivity | exact C].
  Qed.
  Lemma call_corrupted x s : corrupted s = true -> exists s', on_call sch x s = Some s' /\ corrupted s' = true.
  Proof.
    intros C. destruct x as [k e]. unfold on_call, unless_corrupted. rewrite C. destruct e; try (eexists; split; [reflexivity | exact C]).
    unfold on_object. destruct (typed sch (c_input k)) as [[]|]; try (eexists; split; [reflexivity | exact C]).
    revert s C. induction o as [|e o IH]; intros s C; cbn [on_entries]; [eexists; split; [reflexivity | exact C]|].
    destruct (entry_corrupted name fields e s) as (s' & -> & C'). apply IH. congruence.
  Qed.
  Lemma call_some l x s : fits sch l s -> exists s', on_call sch x s = Some s'.
  Proof.
    intros F. destruct x as [k e]. unfold on_call, unless_corrupted. destruct e; try (eexists; reflexivity); try (destruct (corrupted s); eexists; reflexivity).
    - destruct (corrupted s); [eexists; reflexivity|]. unfold on_variable. destruct (refs_all sch (inner_type (vd_type v))) as (r & -> & _). eexists. reflexivity.
    - unfold on_object. destruct (typed sch (c_input k)) as [[]|]; try (eexists; reflexivity).
      destruct (on_entries_adds sch l name fields o s (f_good _ _ _ F) (fits_valued _ _ _ F)) as (s' & -> & _). exists s'. reflexivity.
  Qed.
  Lemma calls_app l x : forall s, on_calls sch (l ++ [x]) s = match on_calls sch l s with Some s' => on_call sch x s' | None => None end.
  Proof. induction l as [|y l IH]; intros s; cbn [on_calls app]; [destruct (on_call sch x s); reflexivity|]. destruct (on_call sch y s); [apply IH | reflexivity]. Qed.
  Lemma fits_start : fits sch [] start_state.
  Proof.
    split; cbn; [split; [constructor | intros x []] | | | reflexivity |].
    - intros x. split; [intros [] | intros (? & ? & ? & [] & _)].
    - intros x. split; [intros [] | intros (? & ? & [] & _)].
    - intros c. split; [intros [] | intros (b & y & a & E & _); destruct b; discriminate].
  Qed.
  Lemma orphan_snoc l x : orphan (l ++ [x]) <-> orphan l \/ orphan [x].
  Proof.
    split.
    - intros (k & e & I & X). apply in_app_iff in I as [I|I]; [left | right]; exists k, e; auto.
    - intros [(k & e & I & X)|(k & e & I & X)]; exists k, e; (split; [apply in_or_app; auto | exact X]).
  Qed.
  Lemma calls_fit l : depth 0 l <> None -> exists s, on_calls sch l start_state = Some s /\ (corrupted s = true <-> orphan l) /\ (corrupted s = false -> fits sch l s).
  Proof.
    induction l as [|x l IH] using rev_ind; intros D.
    - exists start_state. split; [reflexivity|]. split; [split; [discriminate | intros (? & ? & [] & _)] | intros _; exact fits_start].
    - assert (D0 : depth 0 l <> None) by (rewrite depth_app in D; destruct (depth 0 l); congruence). destruct (IH D0) as (s & E & O & F). rewrite calls_app, E.
      destruct (corrupted s) eqn:C.
      + destruct (call_corrupted x s C) as (s' & E' & C'). exists s'. split; [exact E'|]. split; [|congruence]. rewrite orphan_snoc, C'. tauto.
      + destruct (call_some l x s (F eq_refl)) as (s' & E'). exists s'. split; [exact E'|]. destruct (step sch l x s s' D (F eq_refl) C E') as (F' & O'). split; [|exact F'].
        rewrite orphan_snoc, O', <- O. split; [auto | intros [X|X]; [discriminate | exact X]].
  Qed.

  Variable iter : list string -> list string.
  Hypothesis iter_in : forall l x, In x (iter l) <-> In x l.
  Lemma collect_spec doc calls : walk sch doc = Some calls ->
    collect sch iter doc = NoParent /\ orphan calls \/
    ~ orphan calls /\ exists l, collect sch iter doc = Coordinates l /\ forall c, In c l <-> reported sch calls c.
  Proof.
    intros W. unfold collect. rewrite W. destruct (calls_fit calls) as (s & -> & O & F); [rewrite (balanced_depth _ (walk_balanced doc calls W)); discriminate|].
    destruct (corrupted s) eqn:C; [left; split; [reflexivity | apply O; reflexivity]|]. right. split; [intros X; apply O in X; discriminate|]. specialize (F eq_refl).
    destruct (nested_all_adds sch (iter (used_types s)) (visited s, coords s) (proj2 (f_good _ _ _ F))) as ([v l] & -> & A). exists l. split; [reflexivity|]. intros c. cbn [snd] in A. rewrite A, (f_coords _ _ _ F). unfold reported.
    split; (intros [X|X]; [left; exact X | right]).
    - destruct X as (n & I & x & R & B). apply (proj1 (iter_in _ _)) in I. apply (f_used _ _ _ F) in I as (k & w & I & R'). exists k, w. split; [exact I|]. exists x. split; [apply (reach_trans sch _ n); assumption | exact B].
    - destruct X as (k & w & I & X). exists (inner_type (vd_type w)). split; [|exact X]. apply (proj2 (iter_in _ _)). apply (f_used _ _ _ F). exists k, w. split; [exact I | apply reach_here].
  Qed.
End Final.
