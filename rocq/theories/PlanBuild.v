(** The plan built for a selection set shows exactly what the selection set selects. *)
From Coq Require Import String List Bool Arith Lia.
From Verif Require Import StrOrd JsonModel Ast ProjModel ProjCond TrieModel PlanModel PlanSpec PlanCond PlanMerge PlanMatch.
Import ListNotations.
Local Open Scope string_scope.
Local Open Scope list_scope.

Lemma all_Forall Q l : all Q l <-> Forall Q l.
Proof. induction l as [|x l IH]; cbn; [split; auto|]. rewrite IH. split; [intros [? ?]; auto|intros H; inversion H; auto]. Qed.

(** *** Collected fields *)
Section Collected.
Variable M : meta.
Variable part : option string -> option string -> Prop.
Notation collected := (collected M part).
Lemma collected_app T a b k f sub : collected T (a ++ b) k f sub <-> collected T a k f sub \/ collected T b k f sub.
Proof.
  split.
  - intros H. inversion H as [l n al args i s sub0 k0 Hin Hp Hk|l t i s sub0 k0 f0 sub' Hin Hp Ht Hc]; subst; apply in_app_or in Hin; destruct Hin as [Hin|Hin].
    + left. eapply col_field; eauto.
    + right. eapply col_field; eauto.
    + left. eapply col_frag; eauto.
    + right. eapply col_frag; eauto.
  - intros [H|H]; inversion H as [l n al args i s sub0 k0 Hin Hp Hk|l t i s sub0 k0 f0 sub' Hin Hp Ht Hc]; subst.
    + eapply col_field; eauto. apply in_or_app. left. exact Hin.
    + eapply col_frag; eauto. apply in_or_app. left. exact Hin.
    + eapply col_field; eauto. apply in_or_app. right. exact Hin.
    + eapply col_frag; eauto. apply in_or_app. right. exact Hin.
Qed.
Lemma collected_field T n a args i s sub k f sub' :
  collected T [SField n a args i s false sub] k f sub' <->
  part i s /\ k = response_key n a /\ f = n /\ sub' = sub.
Proof.
  split.
  - intros H. inversion H as [l n0 al args0 i0 s0 sub0 k0 Hin Hp Hk|l t i0 s0 sub0 k0 f0 sub1 Hin Hp Ht Hc]; subst; destruct Hin as [Hin|[]]; [|discriminate].
    injection Hin as -> -> -> -> -> ->. auto.
  - intros (Hp & -> & -> & ->). eapply col_field; [left; reflexivity|exact Hp|reflexivity].
Qed.
Lemma collected_frag T t i s sub k f sub' :
  collected T [SFrag t i s sub] k f sub' <-> part i s /\ In T (m_possible M t) /\ collected T sub k f sub'.
Proof.
  split.
  - intros H. inversion H as [l n0 al args0 i0 s0 sub0 k0 Hin Hp Hk|l t0 i0 s0 sub0 k0 f0 sub1 Hin Hp Ht Hc]; subst; destruct Hin as [Hin|[]]; [discriminate|].
    injection Hin as -> -> -> ->. auto.
  - intros (Hp & Ht & Hc). eapply col_frag; [left; reflexivity|exact Hp|exact Ht|exact Hc].
Qed.
Lemma collected_placeholder T l k f sub : placeholder l -> ~ collected T l k f sub.
Proof.
  intros H C. destruct l as [|[n a args i s [|] sub0| |] [|]]; try destruct H.
  inversion C as [l n0 al args0 i0 s0 sub1 k0 Hin Hp Hk|l t0 i0 s0 sub1 k0 f0 sub2 Hin Hp Ht Hc]; subst; destruct Hin as [Hin|[]]; discriminate.
Qed.
Lemma picks_app path a b : path <> [] -> (picks M part path (a ++ b) <-> picks M part path a \/ picks M part path b).
Proof.
  destruct path as [|[[T k] f] path]; [tauto|]. intros _. cbn [picks]. split.
  - intros (sub & H & Hp). apply collected_app in H. destruct H; [left|right]; exists sub; auto.
  - intros [(sub & H & Hp)|(sub & H & Hp)]; exists sub; (split; [apply collected_app; auto|exact Hp]).
Qed.
Lemma picks_nil path : path <> [] -> ~ picks M part path [].
Proof.
  destruct path as [|[[T k] f] path]; [tauto|]. intros _ (sub & H & _).
  inversion H as [l n0 al args0 i0 s0 sub1 k0 Hin Hp Hk|l t0 i0 s0 sub1 k0 f0 sub2 Hin Hp Ht Hc]; subst; destruct Hin.
Qed.
Lemma picks_placeholder path l : placeholder l -> path <> [] -> ~ picks M part path l.
Proof. destruct path as [|[[T k] f] path]; [tauto|]. intros H _ (sub & Hc & _). exact (collected_placeholder T l k f sub H Hc). Qed.
End Collected.

Section Build.
Variable M : meta.
Variable order : sset -> list string.
Hypothesis order_ok : forall s x, In x (order s) <-> In x s.
Hypothesis Sok : schema_ok M.
Variable n : nat.
Variable Nl : string -> string -> nshape -> Prop.
Hypothesis N_typename : forall T, Nl T "__typename" (NLeaf true).
Hypothesis N_declared : forall P T f o nl, In T (m_possible M P) -> field_info M P f = Some (o, nl) -> Nl T f nl.
Notation good := (good M order Nl).
Notation objs := (objs M).
Notation typed := (typed M).
Notation output := (output M).
Notation mm := (merge_matching M order n).
Notation process := (process M mm).
Notation from_set := (from_set M mm).

Definition collect (P : string) (pc : option cond) : list sel -> variants -> bres variants :=
  fix each (l : list sel) (fs : variants) : bres variants :=
    match l with [] => BOk fs | x :: l' => bbind (process x P pc fs) (each l') end.
Lemma from_set_eq sub P pc :
  from_set sub P pc = bbind (collect P pc sub []) (fun fs => bbind (resolve M mm fs P) (fun l => BOk (match l with [] => None | _ => Some l end))).
Proof. reflexivity. Qed.
Lemma process_field name alias args inc skip omit sub P pc fs :
  process (SField name alias args inc skip omit sub) P pc fs =
  match (if String.eqb name "__typename" then Some ("String", NLeaf true) else field_info M P name) with
  | None => BOk fs
  | Some (t, nl) =>
      bbind (if only_omitted sub then BOk (Some []) else from_set sub t (child_condition M pc t inc skip)) (fun sels =>
      merge_plan mm fs
        (Plan name (response_key name alias) (String.eqb name "__typename") nl (guard_of pc)
              (own_condition M pc t inc skip) (SData sels)) P)
  end.
Proof. reflexivity. Qed.
Lemma process_frag t inc skip sub P pc fs :
  process (SFrag t inc skip sub) P pc fs =
  bbind (from_set sub t (inner_condition M pc t inc skip)) (fun sels =>
  match sels with
  | None => BOk fs
  | Some l => merge_plans mm fs (map (reguard (Some (fragment_condition M t))) l) P
  end).
Proof. reflexivity. Qed.

(** *** The conditions handed down *)
Lemma field_condition_objs t T : objs t T -> opens (Some (field_condition M t)) T.
Proof.
  intros H. unfold field_condition. destruct (m_object M t) eqn:Eo; cbn [orb].
  - destruct H as [_ H]. rewrite (so_object M Sok t Eo) in H. destruct H as [H|[]]. cbn. congruence.
  - destruct (m_scalar M t) eqn:Es; [exfalso; exact (so_scalar M Sok t T Es H)|]. exact (proj2 H).
Qed.
Lemma field_condition_within t x : opens (Some (field_condition M t)) x -> In x (m_possible M t).
Proof.
  unfold field_condition. destruct (m_object M t || m_scalar M t)%bool; cbn [opens]; [|tauto]. intros ->. apply (so_self M Sok).
Qed.
Lemma fragment_condition_iff t x : opens (Some (fragment_condition M t)) x <-> In x (m_possible M t).
Proof.
  unfold fragment_condition. destruct (m_object M t) eqn:E; cbn [opens]; [|tauto].
  rewrite (so_object M Sok t E). cbn. intuition congruence.
Qed.
Lemma field_condition_shaped t : shaped M (Some (field_condition M t)).
Proof.
  unfold field_condition. destruct (m_object M t || m_scalar M t)%bool eqn:E; cbn [shaped]; [apply orb_prop; exact E|]. exists t. reflexivity.
Qed.
Lemma fragment_condition_shaped t : shaped M (Some (fragment_condition M t)).
Proof. unfold fragment_condition. destruct (m_object M t) eqn:E; cbn [shaped]; [left; exact E|]. exists t. reflexivity. Qed.

Lemma own_met vt pc t i s T : pure_opt pc -> opens (guard_of pc) T ->
  (met_opt vt (own_condition M pc t i s) T <-> dirs_opt vt pc /\ included vt i s).
Proof.
  intros Hp Ho. unfold own_condition. fold (guard_of pc).
  set (c1 := if (m_union M t || m_interface M t)%bool then and_optional pc (Some (CField (field_condition M t))) else pc).
  assert (H1 : met_opt vt c1 T <-> dirs_opt vt pc).
  { assert (H0 : met_opt vt pc T <-> dirs_opt vt pc) by (rewrite (pure_met_opt vt pc T Hp); tauto).
    unfold c1. destruct (m_union M t || m_interface M t)%bool; [|exact H0]. rewrite met_and_opt, H0. cbn. tauto. }
  set (c2 := apply_directives c1 i s).
  assert (H2 : met_opt vt c2 T <-> dirs_opt vt pc /\ included vt i s) by (unfold c2; rewrite met_directives, H1; reflexivity).
  set (c3 := match m_enum M t with Some vs => and_optional c2 (Some (CEnum vs)) | None => c2 end).
  assert (H3 : met_opt vt c3 T <-> dirs_opt vt pc /\ included vt i s).
  { unfold c3. destruct (m_enum M t); [rewrite met_and_opt, H2; cbn; tauto|exact H2]. }
  destruct c3 as [c|]; [|exact H3]. rewrite (simplify_met vt c _ T Ho). exact H3.
Qed.
Lemma child_pure pc t i s : pure_opt pc -> pure_opt (child_condition M pc t i s).
Proof.
  intros H. unfold child_condition. apply pure_directives, pure_and_opt.
  - destruct pc; [apply pure_child; exact H|exact I].
  - destruct (match pc with Some c => get_type_guard c | None => None end); exact I.
Qed.
Lemma child_dirs vt pc t i s : pure_opt pc -> (dirs_opt vt (child_condition M pc t i s) <-> dirs_opt vt pc /\ included vt i s).
Proof.
  intros H. unfold child_condition. rewrite dirs_directives, dirs_and_opt.
  assert (A : dirs_opt vt (match pc with Some c => child_conditions c | None => None end) <-> dirs_opt vt pc)
    by (destruct pc; [apply dirs_child; exact H|tauto]). rewrite A.
  destruct (match pc with Some c => get_type_guard c | None => None end); cbn [dirs_opt dirs]; tauto.
Qed.
Lemma child_guard_eq pc t i s : pure_opt pc ->
  guard_of (child_condition M pc t i s) = None \/ guard_of (child_condition M pc t i s) = Some (field_condition M t).
Proof.
  intros H. unfold child_condition. fold (guard_of pc).
  set (inh := match pc with Some c => child_conditions c | None => None end).
  assert (Pi : pure_opt inh) by (unfold inh; destruct pc; [apply pure_child; exact H|exact I]).
  assert (Gi : guard_of inh = None) by (unfold inh; destruct pc; [apply guard_child_none; exact H|reflexivity]).
  rewrite guard_dirs_eq by (apply pure_and_opt; [exact Pi|destruct (guard_of pc); exact I]).
  destruct (guard_of pc); [right; apply guard_plain_and; assumption|left]. destruct inh; exact Gi.
Qed.
Lemma inner_pure pc t i s : pure_opt pc -> pure_opt (inner_condition M pc t i s).
Proof. intros H. apply pure_directives, pure_and_opt; [exact H|exact I]. Qed.
Lemma inner_dirs vt pc t i s : dirs_opt vt (inner_condition M pc t i s) <-> dirs_opt vt pc /\ included vt i s.
Proof. unfold inner_condition. rewrite dirs_directives, dirs_and_opt. cbn. tauto. Qed.
Lemma inner_guard pc t i s x : pure_opt pc ->
  (opens (guard_of (inner_condition M pc t i s)) x <-> opens (guard_of pc) x /\ In x (m_possible M t)).
Proof.
  intros H. unfold inner_condition. rewrite guard_directives by (apply pure_and_opt; [exact H|exact I]).
  rewrite guard_and_opt by (try exact H; exact I). cbn [guard_of get_type_guard]. rewrite fragment_condition_iff. reflexivity.
Qed.

Lemma first_some_ok {A} (f : A -> option string) l o x :
  In x l -> f x = Some o -> (forall y o', In y l -> f y = Some o' -> o' = o) -> first_some f l = Some o.
Proof.
  induction l as [|y l IH]; intros Hin Hf Hu; [destruct Hin|]. cbn [first_some]. destruct (f y) as [o'|] eqn:E.
  - f_equal. apply (Hu y); [left; reflexivity|exact E].
  - destruct Hin as [->|Hin]; [congruence|]. apply IH; auto. intros z o' Hz. apply Hu. right. exact Hz.
Qed.
(** all members of a guard inside one type agree on the type of a field of that type *)
Lemma guard_output P g f o T : f <> "__typename" -> output P f = Some o ->
  (g = None \/ forall x, opens g x -> In x (m_possible M P)) -> opens g T -> In T (m_possible M P) ->
  field_output M order P g f = Some o.
Proof.
  intros Hn Ho Hg HT Hin. unfold field_output. apply String.eqb_neq in Hn. rewrite Hn.
  destruct g as [[t|ts]|].
  - cbn [names_of first_some]. rewrite output_name_eq. cbn in HT. subst t.
    rewrite (so_uniform M Sok P T f o Hin Ho). reflexivity.
  - destruct Hg as [Hg|Hg]; [discriminate|]. cbn [names_of]. apply (first_some_ok _ _ o T).
    + apply order_ok. exact HT.
    + rewrite output_name_eq. exact (so_uniform M Sok P T f o Hin Ho).
    + intros y o' Hy E. apply (proj1 (order_ok ts y)) in Hy. rewrite output_name_eq in E.
      rewrite (so_uniform M Sok P y f o (Hg y Hy) Ho) in E. congruence.
  - rewrite output_name_eq. exact Ho.
Qed.

(** *** Totality *)
Lemma collect_cons P pc x l fs : collect P pc (x :: l) fs = bbind (process x P pc fs) (collect P pc l).
Proof. reflexivity. Qed.
Lemma only_omitted_iff l : only_omitted l = true <-> placeholder l.
Proof. destruct l as [|[? ? ? ? ? [|] ?| |] [|]]; cbn; intuition discriminate. Qed.
Lemma deepest_le k l d : deepest k l <= d <-> Forall (fun x => k x <= d) l.
Proof.
  unfold deepest. induction l as [|x l IH]; cbn [fold_right]; [split; [constructor|lia]|]. split.
  - intros H. constructor; [lia|]. apply IH. lia.
  - intros H. inversion H; subst. apply IH in H3. lia.
Qed.
Definition total_at (s : sel) : Prop := forall P' X P pc fs d, simple M s P' X -> sel_depth s <= d -> d <= n -> deep d (flat fs) ->
  exists fs', process s P pc fs = BOk fs' /\ deep d (flat fs').
Lemma collect_total l : Forall total_at l -> forall P' X P pc fs d, Forall (fun s => simple M s P' X) l -> deepest sel_depth l <= d -> d <= n ->
  deep d (flat fs) -> exists fs', collect P pc l fs = BOk fs' /\ deep d (flat fs').
Proof.
  induction l as [|x l IH]; intros HT P' X P pc fs d Hs Hd Hn Hf.
  - exists fs. split; [reflexivity|exact Hf].
  - rewrite collect_cons. inversion HT; subst. inversion Hs; subst. apply deepest_le in Hd. inversion Hd; subst.
    destruct (H1 P' X P pc fs d H3 H5 Hn Hf) as (fs1 & -> & Hf1). cbn [bbind].
    apply (IH H2 P' X); auto. apply deepest_le. assumption.
Qed.
Lemma from_set_total l : Forall total_at l -> forall P' X P pc d, Forall (fun s => simple M s P' X) l -> deepest sel_depth l <= d -> d <= n ->
  exists r, from_set l P pc = BOk r /\ deep d (match r with Some l => l | None => [] end).
Proof.
  intros HT P' X P pc d Hs Hd Hn. rewrite from_set_eq.
  destruct (collect_total l HT P' X P pc [] d Hs Hd Hn) as (fs & -> & Hf); [constructor|]. cbn [bbind].
  destruct (resolve_total M mm d (merge_matching_total M order Nl n d Hn) fs P Hf) as (r & -> & Hr). cbn [bbind].
  eexists. split; [reflexivity|]. destruct r; [constructor|exact Hr].
Qed.
Lemma process_total s : total_at s.
Proof.
  induction s as [nm a args inc skip om sub IH|t inc skip sub IH|nm] using sel_ind'; intros P' X P pc fs d Hs Hd Hn Hf.
  - rewrite process_field. destruct (if String.eqb nm "__typename" then Some ("String", NLeaf true) else field_info M P nm) as [[t nl]|] eqn:Ei;
      [|exists fs; split; [reflexivity|exact Hf]].
    cbn [sel_depth] in Hd. destruct d as [|d]; [lia|].
    assert (R : exists r, (if only_omitted sub then BOk (Some []) else from_set sub t (child_condition M pc t inc skip)) = BOk r /\
              deep d (match r with Some l => l | None => [] end)).
    { destruct (only_omitted sub) eqn:Eo; [exists (Some []); split; [reflexivity|constructor]|].
      assert (Hsub : exists P1 X1, Forall (fun s => simple M s P1 X1) sub).
      { cbn [simple] in Hs. destruct Hs as (_ & [(_ & ->)|(_ & o & _ & [Hp|(_ & _ & H)])]).
        - exists "", (fun _ => True). constructor.
        - apply only_omitted_iff in Hp. congruence.
        - exists o, (objs o). apply all_Forall. exact H. }
      destruct Hsub as (P1 & X1 & Hsub). apply (from_set_total sub IH P1 X1); [exact Hsub|lia|lia]. }
    destruct R as (r & -> & Hr). cbn [bbind].
    apply (merge_plan_total mm (S d) (merge_matching_total M order Nl n (S d) Hn)); [exact Hf|].
    apply (depth_kids Nl). destruct r; [exact Hr|constructor].
  - rewrite process_frag. cbn [sel_depth] in Hd. cbn [simple] in Hs. destruct Hs as (_ & _ & Hs & _). apply all_Forall in Hs.
    destruct (from_set_total sub IH t _ t (inner_condition M pc t inc skip) d Hs Hd Hn) as (r & -> & Hr). cbn [bbind].
    destruct r as [l|]; [|exists fs; split; [reflexivity|exact Hf]].
    apply (merge_plans_total mm d (merge_matching_total M order Nl n d Hn)); [exact Hf|].
    unfold deep in *. rewrite Forall_map. eapply Forall_impl; [|exact Hr]. intros p Hp. rewrite depth_reguard. exact Hp.
  - destruct Hs.
Qed.

(** *** Correctness *)
Definition head_track (s : sel) (pc : option cond) (Q : option tcond -> string -> Prop) : Prop :=
  match s with
  | SField nm _ _ _ _ _ _ => Q (guard_of pc) nm
  | SFrag t _ _ _ => forall f, Q (Some (fragment_condition M t)) f
  | SSpread _ => True
  end.
Definition inside (pc : option cond) (P : string) : Prop :=
  guard_of pc = None \/ forall x, opens (guard_of pc) x -> In x (m_possible M P).
Record ctx (P : string) (X : string -> Prop) (C : list step -> Prop) (pc : option cond) (l : list sel) : Prop := {
  cx_within : within M X P;
  cx_coherent : coherent C;
  cx_pure : pure_opt pc;
  cx_open : forall T, X T -> opens (guard_of pc) T;
  cx_inside : inside pc P;
  cx_simple : Forall (fun s => simple M s P X) l;
  cx_mentions : forall path, path <> [] -> typed X path -> mentions M path l -> C path }.
Definition result_ok P X C pc l fs fs' : Prop :=
  variants_ok M order Nl P X C fs' /\
  ((exists T, X T) -> l <> [] -> fs' <> []) /\
  (fs <> [] -> fs' <> []) /\
  (forall Q, tracked Q (flat fs) -> Forall (fun s => head_track s pc Q) l -> tracked Q (flat fs')) /\
  forall vt path, path <> [] -> typed X path ->
    (shows vt path (flat fs') <-> shows vt path (flat fs) \/ (dirs_opt vt pc /\ selects M vt path l)).
Definition correct_at (s : sel) : Prop := forall P X C pc fs fs', ctx P X C pc [s] -> variants_ok M order Nl P X C fs ->
  process s P pc fs = BOk fs' -> result_ok P X C pc [s] fs fs'.

Lemma ctx_cons P X C pc x l : ctx P X C pc (x :: l) -> ctx P X C pc [x] /\ ctx P X C pc l.
Proof.
  intros [H1 H2 H3 H4 H5 H6 H7]. inversion H6; subst. split; (constructor; try assumption).
  - constructor; [assumption|constructor].
  - intros path Hne Ht Hm. apply H7; [exact Hne|exact Ht|]. apply (picks_app M _ path [x] l Hne). left. exact Hm.
  - intros path Hne Ht Hm. apply H7; [exact Hne|exact Ht|]. apply (picks_app M _ path [x] l Hne). right. exact Hm.
Qed.
Lemma collect_ok l : Forall correct_at l -> forall P X C pc fs fs', ctx P X C pc l -> variants_ok M order Nl P X C fs ->
  collect P pc l fs = BOk fs' -> result_ok P X C pc l fs fs'.
Proof.
  induction l as [|x l IH]; intros HT P X C pc fs fs' Hc HV E.
  - injection E as <-. split; [exact HV|]. split; [congruence|]. split; [tauto|]. split; [tauto|].
    intros vt path Hne Ht. pose proof (picks_nil M (included vt) path Hne). unfold selects. tauto.
  - rewrite collect_cons in E. inversion HT as [|? ? Hx Hl]; subst. destruct (ctx_cons _ _ _ _ _ _ Hc) as [Cx Cl].
    destruct (process x P pc fs) as [fs1|] eqn:E1; cbn [bbind] in E; [|discriminate].
    destruct (Hx P X C pc fs fs1 Cx HV E1) as (V1 & N1 & M1 & Q1 & S1).
    destruct (IH Hl P X C pc fs1 fs' Cl V1 E) as (V2 & N2 & M2 & Q2 & S2).
    split; [exact V2|]. split; [intros HX _; apply M2, N1; [exact HX|discriminate]|]. split; [auto|]. split.
    + intros Q HQ Hh. inversion Hh; subst. apply Q2; [apply Q1; [exact HQ|constructor; [assumption|constructor]]|assumption].
    + intros vt path Hne Ht. rewrite (S2 vt path Hne Ht), (S1 vt path Hne Ht).
      unfold selects. rewrite (picks_app M (included vt) path [x] l Hne). tauto.
Qed.

Definition list_of (r : option (list plan)) : list plan := match r with Some l => l | None => [] end.
Lemma resolve_single fs P : Forall (fun kv : string * list plan => length (snd kv) = 1) fs -> resolve M mm fs P = BOk (flat fs).
Proof.
  induction fs as [|[k vs] fs IH]; intros H; [reflexivity|]. inversion H; subst. cbn [resolve snd] in *.
  assert (E : exclusive vs = true) by (unfold exclusive; rewrite H2; reflexivity). rewrite E. cbn [bbind]. rewrite (IH H3). reflexivity.
Qed.
Lemma same_guard_single P X C fs g : variants_ok M order Nl P X C fs -> Forall (fun p => p_guard p = g) (flat fs) ->
  Forall (fun kv : string * list plan => length (snd kv) = 1) fs.
Proof.
  intros [_ HV]. induction fs as [|[k vs] fs IH]; intros HG; [constructor|]. inversion HV as [|? ? (G1 & G2 & G3) G4]; subst.
  unfold flat in HG. cbn [map concat snd] in HG. apply Forall_app in HG. destruct HG as [Ha Hb]. constructor; [|apply IH; assumption].
  cbn [snd] in *. destruct vs as [|v [|w vs]]; [congruence|reflexivity|]. exfalso.
  inversion Ha as [|? ? Hv Hw]; subst. inversion Hw as [|? ? Hw' _]; subst. cbn [map] in G2. inversion G2; subst. apply H1. left. congruence.
Qed.

Lemma live_head s P X C pc : ctx P X C pc [s] -> head_track s pc (fun g _ => (exists T, X T) -> exists T, X T /\ opens g T).
Proof.
  intros [H1 H2 H3 H4 H5 H6 H7]. destruct s as [nm a args i sk om sub|t i sk sub|nm]; cbn [head_track]; [| |exact I].
  - intros (T & HT). exists T. split; [exact HT|apply H4; exact HT].
  - intros f HX. inversion H6; subst. cbn [simple] in *. destruct H8 as (_ & Ho & _). destruct (Ho HX) as (T & HT & Hin).
    exists T. split; [exact HT|]. apply fragment_condition_iff. exact Hin.
Qed.
Lemma ctx_each P X C pc l s : ctx P X C pc l -> In s l -> ctx P X C pc [s].
Proof.
  induction l as [|x l IH]; intros H Hin; [destruct Hin|]. destruct (ctx_cons _ _ _ _ _ _ H) as [Hx Hl].
  destruct Hin as [<-|Hin]; [exact Hx|]. apply IH; assumption.
Qed.

Lemma from_set_ok l : Forall correct_at l -> forall P X C pc r, ctx P X C pc l -> from_set l P pc = BOk r ->
  Forall (fun p => good p P X C) (list_of r) /\ apart X (list_of r) /\ (l <> [] -> (exists T, X T) -> list_of r <> []) /\
  (forall Q : option tcond -> Prop, Forall (fun s => head_track s pc (fun g _ => Q g)) l -> (forall t, objs P t -> Q (Some (TExact t))) ->
     Forall (fun p => Q (p_guard p)) (list_of r)) /\
  (forall Q, all is_field l -> Forall (fun s => head_track s pc Q) l -> tracked Q (list_of r)) /\
  forall vt path, path <> [] -> typed X path ->
    (shows vt path (list_of r) <-> dirs_opt vt pc /\ selects M vt path l).
Proof.
  intros HT P X C pc r Hc E. rewrite from_set_eq in E.
  destruct (collect P pc l []) as [fs|] eqn:E1; cbn [bbind] in E; [|discriminate].
  destruct (resolve M mm fs P) as [l'|] eqn:E2; cbn [bbind] in E; [|discriminate].
  assert (Er : list_of r = l') by (injection E as <-; destruct l'; reflexivity). rewrite Er. clear E Er.
  assert (V0 : variants_ok M order Nl P X C []) by (split; constructor).
  destruct (collect_ok l HT P X C pc [] fs Hc V0 E1) as (V1 & N1 & _ & Q1 & S1).
  pose proof (keyed_of M order Nl P X C fs V1) as Kf.
  destruct (resolve_ok M order Sok Nl mm (merge_matching_ok M order Sok Nl n) fs P l' E2 Kf (proj1 V1)) as (_ & R2 & R3 & R4).
  destruct (R4 X C (cx_within _ _ _ _ _ Hc) (cx_coherent _ _ _ _ _ Hc) V1) as (G1 & G2 & G3).
  split; [exact G1|]. split; [exact G2|]. split; [|split; [|split]].
  - intros Hl HX. apply R3. assert (Hf : fs <> []) by (apply N1; assumption).
    assert (L : tracked (fun g _ => (exists T, X T) -> exists T, X T /\ opens g T) (flat fs)).
    { apply Q1; [constructor|]. apply Forall_forall. intros s Hs. apply (live_head s P X C). apply (ctx_each P X C pc l); assumption. }
    destruct fs as [|[k vs] fs]; [congruence|]. destruct V1 as [_ V1]. inversion V1 as [|? ? (_ & _ & Hne) _]; subst. cbn [snd] in Hne.
    destruct vs as [|v vs]; [congruence|]. inversion L as [|? ? Lv _]; subst. destruct (Lv HX) as (T & HT' & Ho).
    exists v, T. split; [left; reflexivity|]. split; [apply (cx_within _ _ _ _ _ Hc); exact HT'|exact Ho].
  - intros Q Hh HP. apply R2; [|exact HP]. apply (Q1 (fun g _ => Q g)); [constructor|exact Hh].
  - intros Q Hall Hh.
    assert (S : Forall (fun p => p_guard p = guard_of pc) (flat fs)).
    { apply (Q1 (fun g _ => g = guard_of pc)); [constructor|]. apply all_Forall in Hall. eapply Forall_impl; [|exact Hall].
      intros [nm a args i sk om sub|t i sk sub|nm] Hs; try destruct Hs. reflexivity. }
    assert (E3 : l' = flat fs).
    { pose proof (resolve_single fs P (same_guard_single P X C fs (guard_of pc) V1 S)) as E3. rewrite E2 in E3. injection E3 as ->. reflexivity. }
    rewrite E3. apply Q1; [constructor|exact Hh].
  - intros vt path Hne Ht. rewrite (G3 vt path Hne Ht), (S1 vt path Hne Ht).
    pose proof (shows_nil vt path Hne). change (flat []) with (@nil plan). tauto.
Qed.

Lemma field_info_output P f t nl : field_info M P f = Some (t, nl) -> output P f = Some t.
Proof. unfold field_info, PlanSpec.output. destruct (m_fields M P); [|discriminate]. intros ->. reflexivity. Qed.
Lemma output_field_info P f o : output P f = Some o -> exists nl, field_info M P f = Some (o, nl).
Proof.
  unfold field_info, PlanSpec.output. destruct (m_fields M P) as [fs|]; [|discriminate]. destruct (fs f) as [[o' nl]|]; [|discriminate].
  intros E. injection E as <-. exists nl. reflexivity.
Qed.

(** the selections below a field, for objects reached through type [T] *)
Lemma field_sub_ok sub (HT : Forall correct_at sub) P X C pc inc skip nm a args o r T :
  ctx P X C pc [SField nm a args inc skip false sub] -> X T -> nm <> "__typename" -> output T nm = Some o ->
  (placeholder sub \/ ~ placeholder sub /\ (sub = [] -> forall T, ~ objs o T) /\ all (fun x => simple M x o (objs o)) sub) ->
  (if only_omitted sub then BOk (Some []) else from_set sub o (child_condition M pc o inc skip)) = BOk r ->
  sub_ok M order Nl o C nm (response_key nm a) T (own_condition M pc o inc skip) (SData r) /\
  forall vt path, path <> [] -> typed (objs o) path ->
    (shows vt path (list_of r) <-> dirs_opt vt pc /\ included vt inc skip /\ selects M vt path sub).
Proof.
  intros Hc HX Hn Ho Hsub E. pose proof (cx_pure _ _ _ _ _ Hc) as Hp. pose proof (cx_open _ _ _ _ _ Hc T HX) as HoT.
  destruct (only_omitted sub) eqn:Eo.
  - injection E as <-. apply only_omitted_iff in Eo. split.
    + split; [split; [constructor|exact I]|]. intros vt path Hne _ H. exfalso. exact (shows_nil vt path Hne H).
    + intros vt path Hne _. pose proof (shows_nil vt path Hne). pose proof (picks_placeholder M (included vt) path sub Eo Hne). unfold selects. cbn [list_of]. tauto.
  - destruct Hsub as [Hpl|(_ & Hleaf & Hall)]; [apply only_omitted_iff in Hpl; congruence|].
    assert (Hctx : ctx o (objs o) (after C (T, response_key nm a, nm)) (child_condition M pc o inc skip) sub).
    { constructor.
      - apply objs_within.
      - apply coherent_after. exact (cx_coherent _ _ _ _ _ Hc).
      - apply child_pure. exact Hp.
      - intros T' HT'. destruct (child_guard_eq pc o inc skip Hp) as [G|G]; rewrite G; [exact I|]. apply field_condition_objs. exact HT'.
      - destruct (child_guard_eq pc o inc skip Hp) as [G|G]; [left; exact G|right]. rewrite G. apply field_condition_within.
      - apply all_Forall. exact Hall.
      - intros path Hne Ht Hm. unfold after. apply (cx_mentions _ _ _ _ _ Hc); [discriminate| |].
        + split; [exact HX|]. right. split; [exact Hn|]. exists o. split; [exact Ho|exact Ht].
        + exists sub. split; [|exact Hm]. apply collected_field. auto. }
    destruct (from_set_ok sub HT o _ _ _ r Hctx E) as (F1 & F2 & F3 & F4 & _ & F6). split.
    + assert (Sh : Forall (fun p => shaped M (p_guard p)) (list_of r)).
      { apply F4.
        - apply Forall_forall. intros [nm' a' args' i' s' om' sub'|t' i' s' sub'|nm'] _; cbn [head_track]; [| |exact I].
          + destruct (child_guard_eq pc o inc skip Hp) as [G|G]; rewrite G; [exact I|apply field_condition_shaped].
          + intros _. apply fragment_condition_shaped.
        - intros t Ht. left. exact (proj1 Ht). }
      unfold sub_ok. destruct r as [l|]; cbn [list_of] in *.
      * split.
        -- split; [|exact F2]. rewrite Forall_forall in *. intros q Hq. split; auto.
        -- intros vt path Hne Ht H. apply (F6 vt path Hne Ht) in H. destruct H as [H _]. apply (child_dirs vt pc o inc skip Hp) in H.
           apply (own_met vt pc o inc skip T Hp HoT). exact H.
      * intros T' HT'. destruct sub as [|x sub]; [exact (Hleaf eq_refl T' HT')|]. exact (F3 ltac:(discriminate) (ex_intro _ T' HT') eq_refl).
    + intros vt path Hne Ht. rewrite (F6 vt path Hne Ht), (child_dirs vt pc o inc skip Hp). tauto.
Qed.

Lemma kids_plan f k ty nl g c r : kids (Plan f k ty nl g c (SData r)) = list_of r.
Proof. destruct r; reflexivity. Qed.

Lemma field_correct nm a args inc skip om sub : Forall correct_at sub -> correct_at (SField nm a args inc skip om sub).
Proof.
  intros HT P X C pc fs fs' Hc HV E. rewrite process_field in E.
  pose proof (cx_simple _ _ _ _ _ Hc) as Hs. inversion Hs as [|? ? Hs1 _]; subst. cbn [simple] in Hs1. destruct Hs1 as (-> & Hs1).
  pose proof (cx_pure _ _ _ _ _ Hc) as Hp.
  assert (Ei : exists t nl, (if String.eqb nm "__typename" then Some ("String", NLeaf true) else field_info M P nm) = Some (t, nl) /\
            (forall T, X T -> Nl T nm nl) /\
            (nm = "__typename" /\ sub = [] \/ nm <> "__typename" /\ output P nm = Some t /\
             (placeholder sub \/ ~ placeholder sub /\ (sub = [] -> forall T, ~ objs t T) /\ all (fun x => simple M x t (objs t)) sub))).
  { destruct Hs1 as [(-> & ->)|(Hn & o & Ho & Hsub)].
    - exists "String", (NLeaf true). split; [reflexivity|]. split; [intros T _; apply N_typename|left; auto].
    - destruct (output_field_info P nm o Ho) as (nl & Ef). exists o, nl. pose proof Hn as Hn'. apply String.eqb_neq in Hn'. rewrite Hn'.
      split; [exact Ef|]. split; [|right; auto]. intros T HX. apply (N_declared P T nm o nl); [|exact Ef].
      exact (proj2 (cx_within _ _ _ _ _ Hc T HX)). }
  destruct Ei as (t & nl & Ei & HN & Hcase). rewrite Ei in E. clear Ei Hs1 Hs.
  destruct (if only_omitted sub then BOk (Some []) else from_set sub t (child_condition M pc t inc skip)) as [r|] eqn:Er; cbn [bbind] in E; [|discriminate].
  set (p := Plan nm (response_key nm a) (String.eqb nm "__typename") nl (guard_of pc) (own_condition M pc t inc skip) (SData r)) in *.
  assert (Hty : nm = "__typename" -> sub = [] -> r = None).
  { intros -> ->. cbn [only_omitted] in Er. rewrite from_set_eq in Er. cbn in Er. congruence. }
  assert (Hout : nm <> "__typename" -> output P nm = Some t -> forall T, X T -> output T nm = Some t).
  { intros Hn Ho T HX. apply (so_uniform M Sok P T nm t); [|exact Ho]. exact (proj2 (cx_within _ _ _ _ _ Hc T HX)). }
  assert (Gp : good p P X C).
  { apply good_unfold. intros T HX HoT. cbn [p_guard p_key p_field p_typename p_null p_val p_cond p] in *.
    split; [|split; [split; [reflexivity|exact (HN T HX)]|]].
    - apply (cx_mentions _ _ _ _ _ Hc); [discriminate|split; [exact HX|left; reflexivity]|].
      exists sub. split; [|exact I]. apply collected_field. auto.
    - destruct Hcase as [(Hn & Hsb)|(Hn & Ho & Hsub)]; [left; split; [exact Hn|]; rewrite (Hty Hn Hsb); reflexivity|].
      right. split; [exact Hn|]. exists t. split; [exact (Hout Hn Ho T HX)|]. split.
      + apply (guard_output P _ nm t T Hn Ho); [exact (cx_inside _ _ _ _ _ Hc)|exact HoT|exact (proj2 (cx_within _ _ _ _ _ Hc T HX))].
      + exact (proj1 (field_sub_ok sub HT P X C pc inc skip nm a args t r T Hc HX Hn (Hout Hn Ho T HX) Hsub Er)). }
  destruct (merge_plan_ok M order Nl mm (merge_matching_ok M order Sok Nl n) fs p P fs' E (keyed_of M order Nl P X C fs HV)) as (_ & K2 & _ & K4 & K5).
  destruct (K5 X C (cx_coherent _ _ _ _ _ Hc) HV Gp) as [V1 S1].
  split; [exact V1|]. split; [intros _ _; exact K2|]. split; [intros _; exact K2|]. split.
  - intros Q HQ Hh. inversion Hh; subst. apply K4; assumption.
  - intros vt path Hne Ht. rewrite (S1 vt path Hne Ht). destruct path as [|[[T k] f] path]; [congruence|]. clear Hne.
    rewrite shows_one. unfold selects. cbn [picks]. cbn [p_key p_field p_guard p_cond p].
    destruct Ht as [HX Ht]. pose proof (cx_open _ _ _ _ _ Hc T HX) as HoT.
    rewrite (own_met vt pc t inc skip T Hp HoT). fold p. rewrite (kids_plan nm (response_key nm a) (String.eqb nm "__typename") nl (guard_of pc) (own_condition M pc t inc skip) r : kids p = list_of r).
    assert (EQ : (exists sub', collected M (included vt) T [SField nm a args inc skip false sub] k f sub' /\ picks M (included vt) path sub') <->
                 included vt inc skip /\ k = response_key nm a /\ f = nm /\ picks M (included vt) path sub).
    { split.
      - intros (sub' & H1 & H2). apply collected_field in H1. destruct H1 as (H3 & H4 & H5 & ->). auto.
      - intros (H3 & H4 & H5 & H6). exists sub. split; [apply collected_field; auto|exact H6]. }
    rewrite EQ. clear EQ.
    destruct Ht as [-> |(Hn & o & Ho & Ht)].
    + cbn [shows picks]. split; [intros [H|H]; [left; exact H|right; intuition congruence]|intros [H|H]; [left; exact H|right; intuition congruence]].
    + destruct path as [|s path].
      { cbn [shows picks]. split; [intros [H|H]; [left; exact H|right; intuition congruence]|intros [H|H]; [left; exact H|right; intuition congruence]]. }
      assert (Hne' : s :: path <> []) by discriminate.
      destruct (string_dec f nm) as [->|Hf]; [|split; (intros [H|H]; [left; exact H|exfalso; intuition congruence])].
      destruct Hcase as [(Hn' & _)|(_ & Ho' & Hsub)]; [contradiction|].
      rewrite (Hout Hn Ho' T HX) in Ho. injection Ho as <-.
      destruct (field_sub_ok sub HT P X C pc inc skip nm a args t r T Hc HX Hn (Hout Hn Ho' T HX) Hsub Er) as [_ F].
      rewrite (F vt (s :: path) Hne' Ht). unfold selects.
      split; (intros [H|H]; [left; exact H|right; intuition congruence]).
Qed.

Lemma frag_correct t inc skip sub : Forall correct_at sub -> correct_at (SFrag t inc skip sub).
Proof.
  intros HT P X C pc fs fs' Hc HV E. rewrite process_frag in E.
  pose proof (cx_simple _ _ _ _ _ Hc) as Hs. inversion Hs as [|? ? Hs1 _]; subst. cbn [simple] in Hs1. destruct Hs1 as (Hne & Hover & Hall & Hkind). clear Hs.
  pose proof (cx_pure _ _ _ _ _ Hc) as Hp.
  set (Y := fun T => X T /\ In T (m_possible M t)) in *.
  set (pc' := inner_condition M pc t inc skip) in *.
  destruct (from_set sub t pc') as [r|] eqn:Er; cbn [bbind] in E; [|discriminate].
  assert (Hctx : ctx t Y C pc' sub).
  { constructor.
    - intros T [HX Hin]. split; [exact (proj1 (cx_within _ _ _ _ _ Hc T HX))|exact Hin].
    - exact (cx_coherent _ _ _ _ _ Hc).
    - apply inner_pure. exact Hp.
    - intros T [HX Hin]. apply inner_guard; [exact Hp|]. split; [apply (cx_open _ _ _ _ _ Hc); exact HX|exact Hin].
    - right. intros x Hx. apply inner_guard in Hx; [|exact Hp]. exact (proj2 Hx).
    - apply all_Forall. exact Hall.
    - intros path Hpn Ht Hm. apply (cx_mentions _ _ _ _ _ Hc); [exact Hpn| |].
      + destruct path as [|[[T k] f] path]; [congruence|]. destruct Ht as [[HX _] Ht]. split; [exact HX|exact Ht].
      + destruct path as [|[[T k] f] path]; [congruence|]. destruct Hm as (sub' & H1 & H2). exists sub'. split; [|exact H2].
        apply collected_frag. destruct Ht as [[_ Hin] _]. auto. }
  destruct (from_set_ok sub HT t Y C pc' r Hctx Er) as (F1 & F2 & F3 & F4 & F5 & F6).
  (* every selection of the fragment applies whenever the fragment does, and keeps its field type *)
  assert (Open : Forall (fun p => forall T, Y T -> opens (p_guard p) T) (list_of r)).
  { destruct Hkind as [(Hobj & Happ)|Hfields].
    - apply (F4 (fun g => forall T, Y T -> opens g T)).
      + apply Forall_forall. intros s Hin. apply all_Forall in Happ. rewrite Forall_forall in Happ. specialize (Happ s Hin).
        destruct s as [nm' a' args' i' s' om' sub'|t' i' s' sub'|nm']; cbn [head_track applies] in *; [| |exact I].
        * apply (cx_open _ _ _ _ _ Hctx).
        * intros _ T [_ HT']. rewrite (so_object M Sok t Hobj) in HT'. destruct HT' as [<-|[]]. apply fragment_condition_iff. exact Happ.
      + intros t' [_ Ht'] T [_ HT']. rewrite (so_object M Sok t Hobj) in Ht', HT'. destruct Ht' as [<-|[]]. destruct HT' as [<-|[]]. reflexivity.
    - assert (G : tracked (fun g _ => g = guard_of pc') (list_of r)).
      { apply F5; [exact Hfields|]. apply all_Forall in Hfields. eapply Forall_impl; [|exact Hfields]. intros [? ? ? ? ? ? ?| |] Hf; try destruct Hf. reflexivity. }
      eapply Forall_impl; [|exact G]. intros p Ep T HY. cbv beta in Ep. rewrite Ep. apply (cx_open _ _ _ _ _ Hctx). exact HY. }
  assert (Out : Forall (fun p => forall T o, Y T -> p_field p <> "__typename" -> output T (p_field p) = Some o ->
                   field_output M order P (Some (fragment_condition M t)) (p_field p) = Some o) (list_of r)).
  { destruct Hkind as [(Hobj & _)|Hfields].
    - apply Forall_forall. intros p _ T o [_ HT'] Hn Ho. unfold fragment_condition. rewrite Hobj.
      rewrite (so_object M Sok t Hobj) in HT'. destruct HT' as [<-|[]]. apply exact_output; assumption.
    - assert (G : tracked (fun _ f => f = "__typename" \/ exists o, output t f = Some o) (list_of r)).
      { apply F5; [exact Hfields|]. apply Forall_forall. intros s Hin. apply all_Forall in Hfields, Hall. rewrite Forall_forall in Hfields, Hall.
        specialize (Hfields s Hin). specialize (Hall s Hin). destruct s as [? ? ? ? ? ? ?| |]; try destruct Hfields. cbn [head_track simple] in *.
        destruct Hall as (_ & [(H & _)|(_ & o & H & _)]); [left; exact H|right; exists o; exact H]. }
      eapply Forall_impl; [|exact G]. intros p Hd T o [HX HT'] Hn Ho. destruct Hd as [Hd|(o' & Ho')]; [contradiction|].
      assert (E' : output T (p_field p) = Some o') by (exact (so_uniform M Sok t T _ _ HT' Ho')). rewrite Ho in E'. injection E' as <-.
      assert (Eo : field_output M order t (Some (fragment_condition M t)) (p_field p) = Some o).
      { apply (guard_output t _ _ o T Hn Ho').
        - right. intros x Hx. apply fragment_condition_iff. exact Hx.
        - apply fragment_condition_iff. exact HT'.
        - exact HT'. }
      unfold field_output in *. destruct (String.eqb (p_field p) "__typename"); exact Eo. }
  set (g := Some (fragment_condition M t)) in *.
  assert (Gl : Forall (fun p => good p P X C) (map (reguard g) (list_of r))).
  { rewrite Forall_map. rewrite Forall_forall in *. intros p Hin. apply good_unfold. intros T HX Ho.
    rewrite p_guard_reguard in *. unfold g in Ho. apply fragment_condition_iff in Ho. assert (HY : Y T) by (split; assumption).
    pose proof (proj1 (good_unfold M order Nl p t Y C) (F1 p Hin) T HY (Open p Hin T HY)) as (B1 & B2 & B3).
    rewrite p_key_reguard, p_field_reguard, p_typename_reguard, p_null_reguard, p_val_reguard, p_cond_reguard. split; [exact B1|]. split; [exact B2|].
    destruct B3 as [B3|(Hn & o & O1 & _ & O3)]; [left; exact B3|]. right. split; [exact Hn|]. exists o. split; [exact O1|]. split; [|exact O3].
    exact (Out p Hin T o HY Hn O1). }
  assert (Sl : forall vt path, path <> [] -> typed X path -> (shows vt path (map (reguard g) (list_of r)) <-> dirs_opt vt pc /\ selects M vt path [SFrag t inc skip sub])).
  { intros vt path Hpn Ht. destruct path as [|[[T k] f] path]; [congruence|]. destruct Ht as [HX Ht].
    assert (EQ : selects M vt ((T, k, f) :: path) [SFrag t inc skip sub] <-> included vt inc skip /\ In T (m_possible M t) /\ selects M vt ((T, k, f) :: path) sub).
    { unfold selects. cbn [picks]. split.
      - intros (sub' & H1 & H2). apply collected_frag in H1. destruct H1 as (H3 & H4 & H5). split; [exact H3|]. split; [exact H4|]. exists sub'. auto.
      - intros (H3 & H4 & sub' & H5 & H6). exists sub'. split; [apply collected_frag; auto|exact H6]. }
    rewrite EQ. clear EQ.
    assert (EQ : shows vt ((T, k, f) :: path) (map (reguard g) (list_of r)) <-> In T (m_possible M t) /\ shows vt ((T, k, f) :: path) (list_of r)).
    { cbn [shows]. split.
      - intros (p & Hin & H1 & H2 & H3 & H4 & H5). apply in_map_iff in Hin. destruct Hin as (q & <- & Hin).
        rewrite p_key_reguard in H1. rewrite p_field_reguard in H2. rewrite p_guard_reguard in H3. rewrite p_cond_reguard in H4. rewrite kids_reguard in H5.
        unfold g in H3. apply fragment_condition_iff in H3. split; [exact H3|]. exists q. rewrite Forall_forall in Open.
        split; [exact Hin|]. split; [exact H1|]. split; [exact H2|]. split; [apply (Open q Hin T); split; assumption|]. auto.
      - intros (H3 & q & Hin & H1 & H2 & _ & H4 & H5). exists (reguard g q). split; [apply in_map; exact Hin|].
        rewrite p_key_reguard, p_field_reguard, p_guard_reguard, p_cond_reguard, kids_reguard.
        split; [exact H1|]. split; [exact H2|]. split; [apply fragment_condition_iff; exact H3|]. auto. }
    rewrite EQ. clear EQ.
    assert (K : In T (m_possible M t) -> (shows vt ((T, k, f) :: path) (list_of r) <-> dirs_opt vt pc' /\ selects M vt ((T, k, f) :: path) sub)).
    { intros Hin. apply F6; [discriminate|]. split; [split; assumption|exact Ht]. }
    unfold pc' in K. rewrite inner_dirs in K. tauto. }
  assert (El : exists fs1, merge_plans mm fs (map (reguard g) (list_of r)) P = BOk fs1 /\ fs1 = fs').
  { destruct r as [l|]; cbn [list_of map merge_plans].
    - exists fs'. split; [exact E|reflexivity].
    - exists fs. split; [reflexivity|]. congruence. }
  destruct El as (fs1 & E' & ->). clear E.
  destruct (merge_plans_ok M order Nl mm (merge_matching_ok M order Sok Nl n) _ fs P fs' E' (keyed_of M order Nl P X C fs HV)) as (_ & K2 & K3 & K4).
  destruct (K4 X C (cx_coherent _ _ _ _ _ Hc) HV Gl) as [V1 S1].
  split; [exact V1|]. split; [|split; [|split]].
  - intros HX _. apply K2. right. destruct (Hover HX) as (T & HX' & Hin).
    assert (list_of r <> []) by (apply F3; [exact Hne|exists T; split; assumption]). destruct (list_of r); [congruence|discriminate].
  - intros Hf. apply K2. left. exact Hf.
  - intros Q HQ Hh. apply K3; [exact HQ|]. inversion Hh as [|? ? Hh1 _]; subst. cbn [head_track] in Hh1. unfold tracked. rewrite Forall_map.
    apply Forall_forall. intros p _. rewrite p_guard_reguard, p_field_reguard. apply Hh1.
  - intros vt path Hpn Ht. rewrite (S1 vt path Hpn Ht), (Sl vt path Hpn Ht). reflexivity.
Qed.

Lemma process_correct s : correct_at s.
Proof.
  induction s as [nm a args inc skip om sub IH|t inc skip sub IH|nm] using sel_ind'.
  - apply field_correct. exact IH.
  - apply frag_correct. exact IH.
  - intros P X C pc fs fs' _ _ E. discriminate E.
Qed.
End Build.
