(** Conditions and type guards of the response plan. *)
From Coq Require Import String List Bool Arith Lia.
From Verif Require Import StrOrd JsonModel Ast ProjModel ProjCond TrieModel PlanModel PlanSpec.
Import ListNotations.
Local Open Scope string_scope.
Local Open Scope list_scope.

Lemma opens_iff g T : opens (Some g) T <-> tmatches g T = true.
Proof.
  destruct g as [t|ts]; cbn; [symmetry; apply String.eqb_eq|].
  symmetry. apply smem_In.
Qed.
Lemma opens_inter a b T : opens (Some (tintersect a b)) T <-> opens (Some a) T /\ opens (Some b) T.
Proof. rewrite !opens_iff, matches_intersect, andb_true_iff. reflexivity. Qed.
Lemma opens_union a b T : opens (Some (tunion a b)) T <-> opens (Some a) T \/ opens (Some b) T.
Proof. rewrite !opens_iff, matches_union, orb_true_iff. reflexivity. Qed.
Lemma opens_dec g T : opens g T \/ ~ opens g T.
Proof.
  destruct g as [g|]; [|left; exact I]. rewrite opens_iff. destruct (tmatches g T); [left; reflexivity|right; discriminate].
Qed.
Lemma guard_eqb_true a b : guard_eqb a b = true -> a = b.
Proof. destruct a, b; cbn; try discriminate; [|reflexivity]. intros H. f_equal. apply tcond_eqb_eq. exact H. Qed.
Lemma guard_eqb_same a : guard_eqb a a = true.
Proof.
  destruct a as [[t|ts]|]; cbn; [apply String.eqb_refl| |reflexivity].
  unfold sset_eqb. destruct (list_eq_dec _ _ _); [reflexivity|congruence].
Qed.

Section Met.
Variable vt : string -> bool.
Lemma met_cand a b T : met vt (cand a b) T <-> met vt a T /\ met vt b T.
Proof.
  destruct a, b; cbn [cand met]; try reflexivity.
  - apply opens_inter.
  - tauto.
  - tauto.
Qed.
Lemma met_cor a b T : met vt (cor a b) T <-> met vt a T \/ met vt b T.
Proof.
  unfold cor. destruct (cond_eqb a b) eqn:E.
  - apply cond_eqb_eq in E. subst. tauto.
  - clear E. destruct a, b; cbn [met]; try reflexivity.
    + apply opens_union.
    + tauto.
    + tauto.
Qed.
Lemma met_and_opt a b T : met_opt vt (and_optional a b) T <-> met_opt vt a T /\ met_opt vt b T.
Proof. destruct a, b; cbn [and_optional met_opt]; try tauto. apply met_cand. Qed.
Lemma met_or_opt a b T : met_opt vt (or_optional a b) T <-> met_opt vt a T \/ met_opt vt b T.
Proof. destruct a, b; cbn [or_optional met_opt]; try tauto. apply met_cor. Qed.
Lemma met_directives c i s T : met_opt vt (apply_directives c i s) T <-> met_opt vt c T /\ included vt i s.
Proof.
  unfold apply_directives, included.
  destruct i, s; cbv zeta; rewrite ?met_and_opt; cbn [met_opt met]; tauto.
Qed.
Lemma simplify_met c g T : opens g T -> (met_opt vt (simplify c g) T <-> met vt c T).
Proof.
  intros Hg. destruct g as [[t|ts]|]; [|destruct c; reflexivity|destruct c; reflexivity].
  cbn in Hg. subst T. induction c as [v|v|u|u|vs|a IHa b IHb|a IHa b IHb]; cbn [simplify].
  - reflexivity.
  - reflexivity.
  - destruct u as [u|[|u [|]]]; cbn [met_opt]; try reflexivity.
    + destruct (String.eqb u t) eqn:E; [|reflexivity]. apply String.eqb_eq in E. subst. cbn. tauto.
    + destruct (String.eqb u t) eqn:E; [|reflexivity]. apply String.eqb_eq in E. subst. cbn. tauto.
  - reflexivity.
  - reflexivity.
  - rewrite met_or_opt, IHa, IHb. reflexivity.
  - rewrite met_and_opt, IHa, IHb. reflexivity.
Qed.
End Met.

(** *** Conditions handed down during construction *)
Fixpoint pure (c : cond) : Prop :=
  match c with
  | CInclude _ | CSkip _ | CParent _ => True
  | CAnd a b => pure a /\ pure b
  | _ => False
  end.
Fixpoint dirs (vt : string -> bool) (c : cond) : Prop :=
  match c with
  | CInclude v => vt v = true
  | CSkip v => vt v = false
  | CAnd a b => dirs vt a /\ dirs vt b
  | _ => True
  end.
Definition pure_opt (c : option cond) := match c with Some c => pure c | None => True end.
Definition dirs_opt vt (c : option cond) := match c with Some c => dirs vt c | None => True end.
Definition guard_of (c : option cond) := match c with Some c => get_type_guard c | None => None end.

Lemma pure_met vt c T : pure c -> (met vt c T <-> dirs vt c /\ opens (get_type_guard c) T).
Proof.
  induction c as [v|v|u|u|vs|a IHa b IHb|a IHa b IHb]; cbn [pure met dirs get_type_guard]; intros H;
    try (cbn [opens]; tauto); try contradiction.
  destruct H as [Ha Hb]. rewrite (IHa Ha), (IHb Hb).
  destruct (get_type_guard a) as [x|], (get_type_guard b) as [y|]; rewrite ?opens_inter; cbn [opens]; tauto.
Qed.
Lemma pure_met_opt vt c T : pure_opt c -> (met_opt vt c T <-> dirs_opt vt c /\ opens (guard_of c) T).
Proof. destruct c; cbn [pure_opt met_opt dirs_opt guard_of]; [apply pure_met|cbn; tauto]. Qed.
Lemma pure_cand a b : pure a -> pure b -> pure (cand a b).
Proof. destruct a, b; cbn; tauto. Qed.
Lemma dirs_cand vt a b : dirs vt (cand a b) <-> dirs vt a /\ dirs vt b.
Proof. destruct a, b; cbn; tauto. Qed.
Lemma guard_cand a b T : pure a -> pure b ->
  (opens (get_type_guard (cand a b)) T <-> opens (get_type_guard a) T /\ opens (get_type_guard b) T).
Proof.
  intros Ha Hb.
  assert (G : forall a b, opens (get_type_guard (CAnd a b)) T <-> opens (get_type_guard a) T /\ opens (get_type_guard b) T).
  { intros x y. cbn [get_type_guard].
    destruct (get_type_guard x), (get_type_guard y); rewrite ?opens_inter; cbn [opens]; tauto. }
  destruct a, b; cbn [pure] in Ha, Hb; try tauto; try apply G.
  cbn [cand get_type_guard]. apply opens_inter.
Qed.
Lemma pure_and_opt a b : pure_opt a -> pure_opt b -> pure_opt (and_optional a b).
Proof. destruct a, b; cbn; auto. apply pure_cand. Qed.
Lemma dirs_and_opt vt a b : dirs_opt vt (and_optional a b) <-> dirs_opt vt a /\ dirs_opt vt b.
Proof. destruct a, b; cbn [and_optional dirs_opt]; try tauto. apply dirs_cand. Qed.
Lemma guard_and_opt a b T : pure_opt a -> pure_opt b ->
  (opens (guard_of (and_optional a b)) T <-> opens (guard_of a) T /\ opens (guard_of b) T).
Proof.
  destruct a, b; cbn [and_optional pure_opt guard_of]; intros Ha Hb; try (cbn; tauto).
  apply guard_cand; assumption.
Qed.
Lemma pure_directives c i s : pure_opt c -> pure_opt (apply_directives c i s).
Proof. unfold apply_directives. intros H. destruct i, s; cbv zeta; repeat apply pure_and_opt; cbn; auto. Qed.
Lemma dirs_directives vt c i s : dirs_opt vt (apply_directives c i s) <-> dirs_opt vt c /\ included vt i s.
Proof.
  unfold apply_directives, included. destruct i, s; cbv zeta; rewrite ?dirs_and_opt; cbn [dirs_opt dirs]; tauto.
Qed.
Lemma guard_directives c i s T : pure_opt c ->
  (opens (guard_of (apply_directives c i s)) T <-> opens (guard_of c) T).
Proof.
  intros H. unfold apply_directives.
  destruct i, s; cbv zeta; repeat (rewrite guard_and_opt; [|repeat apply pure_and_opt; cbn; auto|cbn; auto]);
    cbn [guard_of get_type_guard opens]; tauto.
Qed.
Lemma pure_child c : pure c -> pure_opt (child_conditions c).
Proof. induction c; cbn; try tauto. intros [? ?]. apply pure_and_opt; auto. Qed.
Lemma dirs_child vt c : pure c -> (dirs_opt vt (child_conditions c) <-> dirs vt c).
Proof. induction c; cbn [pure child_conditions]; try (cbn; tauto). intros [Ha Hb]. rewrite dirs_and_opt. cbn. tauto. Qed.
(** no guard at all comes out of inherited conditions *)
Lemma guard_child_none c : pure c -> guard_of (child_conditions c) = None.
Proof.
  induction c as [v|v|u|u|vs|a IHa b IHb|a IHa b IHb]; cbn [pure child_conditions]; try tauto; try reflexivity.
  intros [Ha Hb]. specialize (IHa Ha). specialize (IHb Hb).
  pose proof (pure_child _ Ha) as Pa. pose proof (pure_child _ Hb) as Pb.
  destruct (child_conditions a) as [x|], (child_conditions b) as [y|]; cbn [and_optional guard_of] in *; try assumption.
  destruct x, y; cbn in *; try tauto; try discriminate; try reflexivity;
    repeat match goal with H : _ = None |- _ => rewrite H; clear H end; try reflexivity.
Qed.
Lemma guard_plain_and c x : guard_of c = None -> pure_opt c -> guard_of (and_optional c (Some (CParent x))) = Some x.
Proof.
  destruct c as [c|]; cbn [guard_of and_optional pure_opt]; [|reflexivity]. intros G P.
  destruct c; cbn in *; try tauto; try discriminate; try reflexivity. rewrite G. reflexivity.
Qed.
Lemma guard_dirs_eq c i s : pure_opt c -> guard_of (apply_directives c i s) = guard_of c.
Proof.
  intros P. unfold apply_directives.
  assert (K : forall c x, pure_opt c -> match x with CInclude _ | CSkip _ => True | _ => False end ->
            guard_of (and_optional c (Some x)) = guard_of c /\ pure_opt (and_optional c (Some x))).
  { clear. intros c x P H. destruct c as [c|]; cbn [and_optional guard_of pure_opt] in *.
    - destruct x; cbn in H; try tauto;
        (split; [|apply pure_cand; [exact P|exact I]]);
        destruct c; cbn in *; try tauto; try reflexivity; destruct (get_type_guard c1), (get_type_guard c2); reflexivity.
    - destruct x; cbn in *; try tauto; split; auto. }
  destruct i as [v|], s as [w|]; cbv zeta.
  - destruct (K c (CInclude v) P I) as [E1 P1]. destruct (K _ (CSkip w) P1 I) as [E2 _]. congruence.
  - apply K; [exact P|exact I].
  - apply K; [exact P|exact I].
  - reflexivity.
Qed.
