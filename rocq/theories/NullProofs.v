(** The nulled response plan, from marked paths to the values shown. *)
From Coq Require Import String List Bool Arith Lia.
From Verif Require Import StrOrd JsonModel Ast ProjModel ProjSpec ProjProofs TrieModel TrieProofs PlanModel PlanCond PlanMerge PlanBuild
  AuthModel AuthSpec AuthProofs AuthFilterProofs AuthDecision NullSpec.
Import ListNotations.
Local Open Scope string_scope.
Local Open Scope list_scope.

Notation rebuild_plan := PlanModel.rebuild.

(** *** The rebuilt plan is the concealed plan *)
Section Exact.
Variable marks : list path.

Lemma conceal_id p : forall here, (forall q s, In q marks -> q <> here ++ s) -> conceal marks here p = p.
Proof.
  induction p as [f k ty n g c v IH] using plan_nested. intros here H. cbn [conceal].
  destruct (in_dec path_dec (here ++ segments g k) marks) as [I|I]; [exfalso; apply (H _ (segments g k) I); reflexivity|].
  destruct v as [[l|]|]; [|reflexivity|reflexivity]. do 3 f_equal. rewrite <- (map_id l) at 2. apply map_ext_in. intros q Hq.
  specialize (IH l eq_refl). rewrite Forall_forall in IH. apply (IH q Hq). intros r s Hr E. rewrite <- app_assoc in E. exact (H r _ Hr E).
Qed.

Lemma every_plan_Forall Q l : every_plan Q l <-> Forall Q l.
Proof. induction l as [|x l IH]; cbn; [split; auto|]. rewrite IH. split; [intros [? ?]; auto|intros H; inversion H; auto]. Qed.

Lemma rebuild_conceal p : forall i here, reaches marks i here -> full p -> rebuild_plan (from_paths marks) i p = conceal marks here p.
Proof.
  induction p as [f k ty n g c v IH] using plan_nested. intros i here Hi Hf.
  assert (K : forall sp hp, reaches marks sp hp -> hp ++ [SegField k] = here ++ segments g k ->
     match find_segment (from_paths marks) sp (SegField k) with
     | None => Plan f k ty n g c v
     | Some (_, true) => Plan f k ty n g c SNull
     | Some (child, false) => Plan f k ty n g c
         (match v with SData (Some l) => SData (match map (rebuild_plan (from_paths marks) child) l with [] => None | l' => Some l' end) | _ => v end)
     end = conceal marks here (Plan f k ty n g c v)).
  { intros sp hp Hr E. destruct (find_segment (from_paths marks) sp (SegField k)) as [[child b]|] eqn:Ef.
    - destruct (find_segment_some marks sp hp (SegField k) child b Hr Ef) as (R & B & _). rewrite E in R, B. cbn [conceal].
      destruct (in_dec path_dec (here ++ segments g k) marks) as [I|I].
      + destruct b; [reflexivity|]. apply B in I. discriminate.
      + destruct b; [exfalso; apply I, B; reflexivity|]. destruct v as [[l|]|]; [|reflexivity|reflexivity].
        cbn [full] in Hf. destruct Hf as [Hne Hl]. apply every_plan_Forall in Hl. specialize (IH l eq_refl).
        assert (Em : map (rebuild_plan (from_paths marks) child) l = map (conceal marks (here ++ segments g k)) l).
        { apply map_ext_in. intros q Hq. rewrite Forall_forall in IH, Hl. apply (IH q Hq); [exact R|exact (Hl q Hq)]. }
        rewrite Em. destruct l as [|x l]; [congruence|]. reflexivity.
    - symmetry. pose proof (find_segment_none marks sp hp (SegField k) Hr Ef) as Hn. rewrite E in Hn. cbn [conceal].
      destruct (in_dec path_dec (here ++ segments g k) marks) as [I|I].
      { exfalso. apply (Hn _ I). apply prefix_refl. }
      destruct v as [[l|]|]; [|reflexivity|reflexivity]. do 3 f_equal. rewrite <- (map_id l) at 2. apply map_ext. intros q.
      apply conceal_id. intros r s Hr' Er. apply (Hn r Hr'). exists s. exact Er. }
  cbn [rebuild_plan scoped].
  destruct g as [[t|ts]|]; cbn [scoped]; [|apply (K i here Hi eq_refl)|apply (K i here Hi eq_refl)].
  destruct (find_segment (from_paths marks) i (SegFrag t)) as [[sp b]|] eqn:Ef.
  - destruct (find_segment_some marks i here (SegFrag t) sp b Hi Ef) as (R & _). apply (K sp _ R). cbn [segments]. rewrite <- app_assoc. reflexivity.
  - symmetry. pose proof (find_segment_none marks i here (SegFrag t) Hi Ef) as Hn. cbn [conceal segments].
    destruct (in_dec path_dec (here ++ [SegFrag t; SegField k]) marks) as [I|I].
    { exfalso. apply (Hn _ I). exists [SegField k]. rewrite <- app_assoc. reflexivity. }
    destruct v as [[l|]|]; [|reflexivity|reflexivity]. do 3 f_equal. rewrite <- (map_id l) at 2. apply map_ext. intros q.
    apply conceal_id. intros r s Hr Er. apply (Hn r Hr). exists ([SegField k] ++ s). rewrite Er, <- !app_assoc. reflexivity.
Qed.

Lemma nulled_plan_exact ps : Forall full ps -> rebuild_nulled_plan (from_paths marks) ps = map (conceal marks []) ps.
Proof.
  intros H. unfold rebuild_nulled_plan. apply map_ext_in. intros p Hp. rewrite Forall_forall in H.
  apply rebuild_conceal; [apply reaches_root|exact (H p Hp)].
Qed.
End Exact.

(** *** What is shown at a marked path *)
Section Shown.
Variable M : ProjModel.meta.
Variable vt : string -> bool.
Variable marks : list path.

Fixpoint dark (here : list string) (p : plan) {struct p} : Prop :=
  match p with
  | Plan _ k _ _ _ _ v =>
      (In (map SegField (here ++ [k])) marks -> v = SNull) /\
      match v with SData (Some l) => every_plan (dark (here ++ [k])) l | _ => True end
  end.

Lemma fields_in ps pt o kvs : fields M vt ps pt o kvs -> forall k t, In (k, t) kvs -> exists q, In q ps /\ p_key q = k /\ fieldc M vt q pt o t.
Proof.
  revert kvs. induction ps as [|q ps IH]; intros kvs H k t Hin.
  - inversion H; subst. destruct Hin.
  - inversion H as [|? ? ? ? ? Hs Hr|? ? ? ? t' kvs' Hf Hn Hr]; subst.
    + destruct (IH _ Hr k t Hin) as (q' & H1 & H2). exists q'. split; [right; exact H1|exact H2].
    + destruct Hin as [E|Hin]; [injection E as <- <-; exists q; split; [left; reflexivity|auto]|].
      destruct (IH _ Hr k t Hin) as (q' & H1 & H2). exists q'. split; [right; exact H1|exact H2].
Qed.

Lemma found_null ks u : found ONull ks u -> ks = [] /\ u = ONull.
Proof. intros H. inversion H. auto. Qed.

Definition hides (here : list string) (p : plan) : Prop :=
  forall pt o t ks u, fieldc M vt p pt o t -> found t ks u -> In (map SegField (here ++ p_key p :: ks)) marks -> u = ONull.

Lemma dark_val here p s nul : dark here p -> p_val p = SData s ->
  (forall l, s = Some l -> Forall (hides (here ++ [p_key p])) l) ->
  forall v pt t ks u, comp M vt p nul pt v t -> found t ks u -> In (map SegField (here ++ p_key p :: ks)) marks -> u = ONull.
Proof.
  intros D Ev Hl v. revert nul. induction v as [|fb|iz|un|bb|str|raw|l IH|o] using value_ind'; intros nul pt t ks u Hc Hf Hm.
  all: destruct ks as [|k ks]; [exfalso; destruct p as [f k ty n g c v0]; cbn in D, Ev; rewrite (proj1 D Hm) in Ev; discriminate|].
  all: inversion Hc; subst; try (inversion Hf; fail).
  - inversion Hf as [|? x ? ? ? Hx Hfx|]; subst.
    match goal with H : Forall2 _ l _ |- _ => rename H into F2 end.
    clear -F2 IH Hx Hfx Hm. induction F2 as [|a b l ts Hab F2 IHF]; [destruct Hx|]. inversion IH; subst.
    destruct Hx as [<-|Hx]; [|apply IHF; assumption]. match goal with H : forall nul, _ |- _ => apply (H _ _ _ _ _ Hab Hfx Hm) end.
  - inversion Hf as [| |? ? t' ? ? Hin Hft]; subst.
    match goal with H : fields _ _ _ _ _ _ |- _ => destruct (fields_in _ _ _ _ H k t' Hin) as (q & Hq & Hk & Hfc) end.
    match goal with H : p_val p = SData (Some sels) |- _ => rewrite Ev in H; injection H as -> end.
    pose proof (proj1 (Forall_forall _ _) (Hl sels eq_refl) q Hq) as Hh. apply (Hh _ _ _ ks u Hfc Hft).
    rewrite Hk, <- app_assoc. exact Hm.
Qed.

Lemma dark_hides p : forall here, dark here p -> hides here p.
Proof.
  induction p as [f k ty n g c v IH] using plan_nested. intros here D pt o t ks u Hc Hf Hm. cbn [p_key] in Hm.
  inversion Hc; subst; try (apply found_null in Hf; tauto).
  - cbn in *. destruct ks as [|k' ks]; [|inversion Hf]. match goal with H : v = SData _ |- _ => rewrite (proj1 D Hm) in H; discriminate end.
  - match goal with H : p_val _ = SData ?s, C : comp _ _ _ _ _ _ _ |- _ => cbn in H; subst v; apply (dark_val here _ s _ D eq_refl) with (2 := C) (3 := Hf); [|exact Hm] end.
    intros l ->. specialize (IH l eq_refl). cbn in D. destruct D as [_ D]. apply every_plan_Forall in D.
    apply Forall_forall. intros q Hq. rewrite Forall_forall in IH, D. apply (IH q Hq). exact (D q Hq).
Qed.

Lemma root_hides root ps d t ks u : Forall (dark []) ps -> comp_root M vt root ps d t -> found t ks u -> In (map SegField ks) marks -> ks <> [] -> u = ONull.
Proof.
  intros D Hc Hf Hm Hne. inversion Hc; subst; try (apply found_null in Hf; tauto).
  destruct ks as [|k ks]; [congruence|]. inversion Hf as [| |? ? t' ? ? Hin Hft]; subst.
  match goal with H : fields _ _ _ _ _ _ |- _ => destruct (fields_in _ _ _ _ H k t' Hin) as (q & Hq & Hk & Hfc) end.
  rewrite Forall_forall in D. apply (dark_hides q [] (D q Hq) _ _ _ ks u Hfc Hft). cbn. rewrite Hk. exact Hm.
Qed.
End Shown.

Section Bare.
(** Plans without type guards. *)
Fixpoint bare (p : plan) : Prop :=
  match p with
  | Plan _ _ _ _ g _ v => g = None /\ match v with SData (Some l) => every_plan bare l | _ => True end
  end.
Lemma bare_dark marks p : forall i ks, reaches marks i (map SegField ks) -> bare p -> dark marks ks (rebuild_plan (from_paths marks) i p).
Proof.
  induction p as [f k ty n g c v IH] using plan_nested. intros i ks Hi [-> Hb]. cbn [rebuild_plan scoped].
  destruct (find_segment (from_paths marks) i (SegField k)) as [[child b]|] eqn:Ef.
  - destruct (find_segment_some marks i _ (SegField k) child b Hi Ef) as (R & B & _).
    assert (Ep : map SegField ks ++ [SegField k] = map SegField (ks ++ [k])) by (rewrite map_app; reflexivity). rewrite Ep in R, B.
    destruct b; [cbn; split; auto|]. destruct v as [[l|]|]; cbn [dark]; (split; [intros Hm; apply B in Hm; discriminate|]); [|exact I|exact I].
    specialize (IH l eq_refl). apply every_plan_Forall in Hb.
    assert (A : Forall (dark marks (ks ++ [k])) (map (rebuild_plan (from_paths marks) child) l)).
    { rewrite Forall_map. apply Forall_forall. intros q Hq. rewrite Forall_forall in IH, Hb. apply (IH q Hq); [exact R|exact (Hb q Hq)]. }
    destruct (map (rebuild_plan (from_paths marks) child) l); [exact I|]. apply every_plan_Forall. exact A.
  - pose proof (find_segment_none marks i _ (SegField k) Hi Ef) as Hn.
    assert (G : forall p here, (forall q, In q marks -> ~ prefix (map SegField here) q) -> dark marks here p).
    { clear. induction p as [f k ty n g c v IH] using plan_nested. intros here Hn. cbn [dark]. split.
      - intros Hm. exfalso. apply (Hn _ Hm). exists [SegField k]. rewrite map_app. reflexivity.
      - destruct v as [[l|]|]; [|exact I|exact I]. apply every_plan_Forall. apply Forall_forall. intros q Hq. specialize (IH l eq_refl).
        rewrite Forall_forall in IH. apply (IH q Hq). intros r Hr Hp. apply (Hn r Hr). apply (prefix_trans _ (map SegField (here ++ [k]))); [|exact Hp].
        exists [SegField k]. rewrite map_app. reflexivity. }
    cbn [dark]. split.
    + intros Hm. exfalso. apply (Hn _ Hm). rewrite map_app. apply prefix_refl.
    + destruct v as [[l|]|]; [|exact I|exact I]. apply every_plan_Forall. apply Forall_forall. intros q _. apply G.
      intros r Hr Hp. apply (Hn r Hr). rewrite map_app in Hp. exact Hp.
Qed.

(** *** An operation without fragments has a plan without guards *)
Variable M : ProjModel.meta.
Variable order : sset -> list string.
(** without guards, and with one selection for each response key *)
Fixpoint plain (p : plan) : Prop :=
  match p with
  | Plan _ _ _ _ g _ v => g = None /\ match v with SData (Some l) => NoDup (map p_key l) /\ every_plan plain l | _ => True end
  end.
Lemma plain_bare p : plain p -> bare p.
Proof.
  induction p as [f k ty n g c v IH] using plan_nested. cbn [plain bare]. intros [-> H]. split; [reflexivity|].
  destruct v as [[l|]|]; [|exact I|exact I]. destruct H as [_ H]. apply every_plan_Forall in H. apply every_plan_Forall.
  specialize (IH l eq_refl). rewrite Forall_forall in *. auto.
Qed.
Definition single (fs : variants) : Prop :=
  NoDup (map fst fs) /\ Forall (fun kv => exists p, snd kv = [p] /\ p_key p = fst kv /\ plain p) fs.
Definition mm_plain (mm : plan -> plan -> string -> bres plan) : Prop :=
  forall e n t r, plain e -> plain n -> mm e n t = BOk r -> plain r /\ p_key r = p_key e.

Lemma plain_guard p : plain p -> p_guard p = None.
Proof. destruct p; cbn. tauto. Qed.
Lemma single_nil : single [].
Proof. split; constructor. Qed.
Lemma single_cons k p fs : single ((k, [p]) :: fs) <-> p_key p = k /\ plain p /\ ~ In k (map fst fs) /\ single fs.
Proof.
  split.
  - intros [H1 H2]. cbn in H1. inversion H1; subst. inversion H2 as [|? ? (q & E & K & Pq) Hr]; subst. cbn in E, K. injection E as <-. repeat split; auto.
  - intros (K & Pp & Hn & H1 & H2). split; [cbn; constructor; assumption|]. constructor; [|exact H2]. exists p. auto.
Qed.
Lemma single_inv k vs fs : single ((k, vs) :: fs) -> exists p, vs = [p] /\ p_key p = k /\ plain p /\ ~ In k (map fst fs) /\ single fs.
Proof.
  intros H. assert (H' := H). destruct H' as [_ H2]. inversion H2 as [|? ? (q & E & K & Pq) H3]; subst. cbn in E. subst vs.
  apply single_cons in H. exists q. tauto.
Qed.
Lemma merge_plan_single mm fs p t : forall r, mm_plain mm -> single fs -> plain p -> merge_plan mm fs p t = BOk r ->
  single r /\ (forall x, In x (map fst r) <-> x = p_key p \/ In x (map fst fs)).
Proof.
  induction fs as [|[k vs] fs IH]; intros r Hm Hs Hp E; cbn [merge_plan] in E.
  - injection E as <-. split; [apply single_cons; repeat split; auto; try constructor|]. cbn. intuition congruence.
  - destruct (single_inv _ _ _ Hs) as (q & -> & Hk & Hq & Hn & Hs'). destruct (String.eqb (p_key p) k) eqn:Ek.
    + apply String.eqb_eq in Ek. cbn [merge_variant] in E. rewrite (plain_guard q Hq), (plain_guard p Hp) in E. cbn [guard_eqb] in E.
      destruct (mm q p t) as [x|] eqn:Ex; [|discriminate]. cbn [bbind] in E. injection E as <-.
      destruct (Hm _ _ _ _ Hq Hp Ex) as [Px Kx]. split; [apply single_cons; repeat split; auto; try congruence; apply Hs'|].
      intros y. cbn. rewrite Ek. intuition congruence.
    + apply String.eqb_neq in Ek. destruct (merge_plan mm fs p t) as [x|] eqn:Ex; [|discriminate]. cbn [bbind] in E. injection E as <-.
      destruct (IH x Hm Hs' Hp eq_refl) as [S1 S2]. split.
      * apply single_cons. split; [exact Hk|]. split; [exact Hq|]. split; [|exact S1]. rewrite S2. intuition congruence.
      * intros y. cbn. rewrite S2. tauto.
Qed.
Lemma merge_plans_single mm t : mm_plain mm -> forall ps fs r, single fs -> Forall plain ps -> merge_plans mm fs ps t = BOk r -> single r.
Proof.
  intros Hm. induction ps as [|p ps IH]; intros fs r Hs Hp E; cbn [merge_plans] in E; [injection E as <-; exact Hs|].
  inversion Hp; subst. destruct (merge_plan mm fs p t) as [x|] eqn:Ex; [|discriminate]. cbn [bbind] in E. apply (IH x r); auto. eapply merge_plan_single; eauto.
Qed.
Lemma resolve_plain mm fs t : forall r, single fs -> resolve M mm fs t = BOk r -> Forall plain r /\ map p_key r = map fst fs.
Proof.
  induction fs as [|[k vs] fs IH]; intros r Hs E; cbn [resolve] in E; [injection E as <-; split; [constructor|reflexivity]|].
  destruct (single_inv _ _ _ Hs) as (q & -> & Hk & Hq & Hn & Hs'). cbn [exclusive length Nat.eqb orb bbind] in E.
  destruct (resolve M mm fs t) as [x|]; [|discriminate]. cbn [bbind] in E. injection E as <-.
  destruct (IH x Hs' eq_refl) as [H1 H2]. split; [constructor; assumption|]. cbn. rewrite H2, Hk. reflexivity.
Qed.
Lemma push_single fs p : single fs -> plain p -> ~ In (p_key p) (map fst fs) ->
  single (push fs p) /\ forall x, In x (map fst (push fs p)) <-> x = p_key p \/ In x (map fst fs).
Proof.
  induction fs as [|[k vs] fs IH]; intros Hs Hp Hn; cbn [push].
  - split; [apply single_cons; repeat split; auto; constructor|]. cbn. intuition congruence.
  - destruct (single_inv _ _ _ Hs) as (q & -> & Hk & Hq & Hnk & Hs'). cbn in Hn.
    destruct (String.eqb (p_key p) k) eqn:Ek; [apply String.eqb_eq in Ek; exfalso; apply Hn; left; congruence|].
    destruct (IH Hs' Hp (fun H => Hn (or_intror H))) as [S1 S2]. apply String.eqb_neq in Ek. split.
    + apply single_cons. split; [exact Hk|]. split; [exact Hq|]. split; [|exact S1]. rewrite S2. intuition congruence.
    + intros y. cbn. rewrite S2. tauto.
Qed.
Lemma group_single l : NoDup (map p_key l) -> Forall plain l -> single (group l).
Proof.
  unfold group. assert (G : forall l fs, NoDup (map p_key l) -> Forall plain l -> single fs -> (forall p, In p l -> ~ In (p_key p) (map fst fs)) ->
    single (fold_left push l fs)).
  { clear l. induction l as [|p l IH]; intros fs Hd Hl Hs Hn; cbn [fold_left]; [exact Hs|]. inversion Hd; inversion Hl; subst.
    destruct (push_single fs p Hs) as [S1 S2]; [assumption|apply Hn; left; reflexivity|]. apply IH; auto.
    intros q Hq. rewrite S2. intros [E|E]; [|exact (Hn q (or_intror Hq) E)].
    match goal with H : ~ In (p_key p) (map p_key l) |- _ => apply H; rewrite <- E; apply in_map; exact Hq end. }
  intros H1 H2. apply G; auto. apply single_nil.
Qed.
Lemma matching_plain fuel : mm_plain (merge_matching M order fuel).
Proof.
  induction fuel as [|fuel IH]; intros e n t r He Hn E; cbn [merge_matching] in E; [discriminate|].
  cbv zeta in E. set (child := match field_output M order t (p_guard e) (p_field e) with Some o => o | None => t end) in E.
  assert (G : forall v', (match v' with SData (Some l) => NoDup (map p_key l) /\ every_plan plain l | _ => True end) ->
     r = with_value (with_cond e (merge_conditions (p_guard e) (p_cond e) (p_guard e) (p_cond n))) v' -> plain r /\ p_key r = p_key e).
  { intros v' Hv ->. destruct e as [f k ty nn g c v]. cbn in *. split; [|reflexivity]. split; [tauto|exact Hv]. }
  assert (Ve : match p_val e with SData (Some l) => NoDup (map p_key l) /\ every_plan plain l | _ => True end) by (destruct e; cbn in *; tauto).
  assert (Vn : match p_val n with SData (Some l) => NoDup (map p_key l) /\ every_plan plain l | _ => True end) by (destruct n; cbn in *; tauto).
  destruct (p_val e) as [old|]; [|apply (G SNull I); cbn in E; congruence].
  destruct (p_val n) as [new|]; [|apply (G SNull I); cbn in E; congruence].
  destruct new as [new|]; [|apply (G (SData old) Ve); cbn in E; congruence].
  destruct old as [old|]; [|apply (G (SData (Some new)) Vn); cbn in E; congruence].
  destruct (merge_plans (merge_matching M order fuel) (group old) new child) as [fs|] eqn:Ef; [|discriminate]. cbn [bbind] in E.
  destruct (resolve M (merge_matching M order fuel) fs child) as [l|] eqn:El; [|discriminate]. cbn [bbind] in E.
  apply (G (SData (Some l))); [|congruence].
  destruct Ve as [Ve1 Ve2]. destruct Vn as [Vn1 Vn2]. apply every_plan_Forall in Ve2. apply every_plan_Forall in Vn2.
  pose proof (merge_plans_single _ child IH new (group old) fs (group_single _ Ve1 Ve2) Vn2 Ef) as Sf.
  destruct (resolve_plain _ _ _ _ Sf El) as [P1 P2]. split; [rewrite P2; apply Sf|apply every_plan_Forall; exact P1].
Qed.


Lemma every_sel_Forall Q l : every_sel Q l <-> Forall Q l.
Proof. induction l as [|x l IH]; cbn; [split; auto|]. rewrite IH. split; [intros [? ?]; auto|intros H; inversion H; auto]. Qed.

Section Process.
Variable mm : plan -> plan -> string -> bres plan.
Hypothesis mm_ok : mm_plain mm.
Definition makes_single (s : sel) : Prop :=
  forall parent pc fs r, fields_only s -> pure_opt pc -> guard_of pc = None -> single fs -> process M mm s parent pc fs = BOk r -> single r.
Lemma from_set_plain l parent pc r : Forall makes_single l -> Forall fields_only l -> pure_opt pc -> guard_of pc = None ->
  from_set M mm l parent pc = BOk r -> match r with Some ps => NoDup (map p_key ps) /\ Forall plain ps | None => True end.
Proof.
  intros Hl Hf Hp Hg E. unfold from_set in E.
  assert (G : forall l fs fs', Forall makes_single l -> Forall fields_only l -> single fs ->
    (fix each (l0 : list sel) (fs0 : variants) {struct l0} : bres variants :=
       match l0 with [] => BOk fs0 | x :: l' => bbind (process M mm x parent pc fs0) (each l') end) l fs = BOk fs' -> single fs').
  { clear l r Hl Hf E. induction l as [|x l IH]; intros fs fs' Hl Hf Hs E; [injection E as <-; exact Hs|]. inversion Hl; inversion Hf; subst.
    destruct (process M mm x parent pc fs) as [fs1|] eqn:E1; [|discriminate]. cbn [bbind] in E. apply (IH fs1 fs'); auto.
    match goal with H : makes_single x |- _ => apply (H parent pc fs fs1); auto end. }
  match type of E with bbind ?X _ = _ => destruct X as [fs|] eqn:Ef; [|discriminate] end. cbn [bbind] in E.
  pose proof (G l [] fs Hl Hf single_nil Ef) as Sf. destruct (resolve M mm fs parent) as [ps|] eqn:Er; [|discriminate]. cbn [bbind] in E. injection E as <-.
  destruct (resolve_plain _ _ _ _ Sf Er) as [P1 P2]. destruct ps as [|p ps]; [exact I|]. split; [rewrite P2; apply Sf|exact P1].
Qed.
Lemma process_one n a args inc skip om sub parent pc fs :
  process M mm (SField n a args inc skip om sub) parent pc fs =
  match (if String.eqb n "__typename" then Some ("String", NLeaf true) else PlanModel.field_info M parent n) with
  | None => BOk fs
  | Some (t, nl) =>
      bbind (if only_omitted sub then BOk (Some []) else from_set M mm sub t (child_condition M pc t inc skip)) (fun sels =>
      merge_plan mm fs
        (Plan n (PlanModel.response_key n a) (String.eqb n "__typename") nl (match pc with Some c => get_type_guard c | None => None end)
              (own_condition M pc t inc skip) (SData sels)) parent)
  end.
Proof. reflexivity. Qed.
Lemma process_single s : makes_single s.
Proof.
  induction s as [n a args inc skip om sub IH|t inc skip sub IH|n] using sel_ind'; intros parent pc fs r Hf Hp Hg Hs E; [|destruct Hf|destruct Hf].
  cbn [fields_only] in Hf. apply every_sel_Forall in Hf. rewrite process_one in E.
  destruct (if String.eqb n "__typename" then Some ("String", NLeaf true) else PlanModel.field_info M parent n) as [[t nl]|]; [|injection E as <-; exact Hs].
  assert (C1 : pure_opt (child_condition M pc t inc skip) /\ guard_of (child_condition M pc t inc skip) = None).
  { unfold child_condition. destruct pc as [c|]; cbn [guard_of pure_opt] in Hg, Hp.
    - rewrite Hg. pose proof (pure_child c Hp) as Pc. assert (Eq : and_optional (child_conditions c) None = child_conditions c) by (destruct (child_conditions c); reflexivity).
      rewrite Eq. split; [apply pure_directives; exact Pc|]. rewrite guard_dirs_eq by exact Pc. apply guard_child_none. exact Hp.
    - cbn [and_optional]. split; [apply pure_directives; exact I|]. apply guard_dirs_eq. exact I. }
  destruct C1 as [C1 C2].
  assert (Hv : forall sels, (if only_omitted sub then BOk (Some []) else from_set M mm sub t (child_condition M pc t inc skip)) = BOk sels ->
    match sels with Some ps => NoDup (map p_key ps) /\ Forall plain ps | None => True end).
  { intros sels Es. destruct (only_omitted sub); [injection Es as <-; split; constructor|]. exact (from_set_plain sub t _ sels IH Hf C1 C2 Es). }
  destruct (if only_omitted sub then BOk (Some []) else from_set M mm sub t (child_condition M pc t inc skip)) as [sels|]; [|discriminate].
  specialize (Hv sels eq_refl). cbn [bbind] in E.
  apply (merge_plan_single _ _ _ _ _ mm_ok Hs) in E; [apply E|]. cbn [plain]. split; [destruct pc as [c|]; [exact Hg|reflexivity]|].
  destruct sels as [ps|]; [|exact I]. split; [apply Hv|]. apply every_plan_Forall. apply Hv.
Qed.
End Process.

Lemma prune_bare p : forall g, g = None -> bare p -> bare (prune M order g p).
Proof.
  induction p as [f k ty n g0 c v IH] using plan_nested. intros g -> [-> Hb]. cbn [prune bare]. split; [reflexivity|].
  destruct v as [[l|]|]; [|exact I|exact I]. apply every_plan_Forall in Hb. apply every_plan_Forall. rewrite Forall_map. specialize (IH l eq_refl).
  apply Forall_forall. intros q Hq. rewrite Forall_forall in IH, Hb. apply (IH q Hq); [|exact (Hb q Hq)].
  cbn [child_guard]. specialize (Hb q Hq). destruct q. cbn in *. tauto.
Qed.
Lemma fields_only_bare root sels ps : Forall fields_only sels -> from_operation M order root sels = BOk ps -> Forall bare ps.
Proof.
  intros Hf E. unfold from_operation in E.
  match type of E with bbind ?X _ = _ => destruct X as [r|] eqn:Er; [|discriminate] end. cbn [bbind] in E. injection E as <-.
  assert (Hr := from_set_plain _ sels root None r
     (proj2 (Forall_forall _ _) (fun s _ => process_single _ (matching_plain _) s)) Hf I eq_refl Er).
  destruct r as [l|]; [|constructor]. rewrite Forall_map. destruct Hr as [_ Hr]. apply Forall_forall. intros p Hp. rewrite Forall_forall in Hr.
  apply prune_bare; [apply plain_guard; exact (Hr p Hp)|apply plain_bare; exact (Hr p Hp)].
Qed.
End Bare.

(** *** Denied fields *)
Lemma found_split t a b u : found t (a ++ b) u -> exists w, found t a w /\ found w b u.
Proof.
  intros H. remember (a ++ b) as c eqn:E. revert a b E. induction H as [t|l x k ks u Hx H IH|o k t ks u Hin H IH]; intros a b E.
  - symmetry in E. apply app_eq_nil in E. destruct E as [-> ->]. exists t. split; constructor.
  - destruct a as [|k' a]; [cbn in E; subst b; exists (OArr l); split; [constructor|econstructor; eauto]|].
    destruct (IH (k' :: a) b E) as (w & H1 & H2). exists w. cbn in E. injection E as <- E. split; [econstructor; eauto|exact H2].
  - destruct a as [|k' a]; [cbn in E; subst b; exists (OObj o); split; [constructor|econstructor; eauto]|].
    cbn in E. injection E as <- E. destruct (IH a b E) as (w & H1 & H2). exists w. split; [econstructor; eauto|exact H2].
Qed.

Lemma fields_only_paths Sc vars xs par ks o : Forall fields_only xs -> In o (occs Sc vars xs par (map SegField ks)) ->
  exists ks', o_path o = map SegField ks'.
Proof.
  assert (G : forall x par ks o, fields_only x -> In o (occ Sc vars x par (map SegField ks)) -> exists ks', o_path o = map SegField ks').
  { induction x as [n a args inc skip om sub IH|t inc skip sub IH|n] using sel_ind'; intros p k q Hf Hq; [|destruct Hf|destruct Hf].
    cbn [fields_only] in Hf. apply every_sel_Forall in Hf. cbn [occ] in Hq. destruct (excluded vars skip inc); [destruct Hq|].
    destruct (String.eqb n "__typename"); [destruct Hq|].
    assert (Ep : map SegField k ++ [SegField (AuthModel.response_key n a)] = map SegField (k ++ [AuthModel.response_key n a])) by (rewrite map_app; reflexivity).
    rewrite Ep in Hq. destruct Hq as [<-|Hq]; [eexists; reflexivity|].
    destruct (field_info Sc p n) as [[out nn]|]; [|destruct Hq]. apply in_flat_map in Hq. destruct Hq as (y & Hy & Hq).
    rewrite Forall_forall in IH, Hf. exact (IH y Hy _ _ _ (Hf y Hy) Hq). }
  intros Hf Ho. unfold occs in Ho. apply in_flat_map in Ho. destruct Ho as (y & Hy & Ho). rewrite Forall_forall in Hf. exact (G y par ks o (Hf y Hy) Ho).
Qed.

Lemma prefix_fields q ks : prefix q (map SegField ks) -> exists ks' s, q = map SegField ks' /\ ks = ks' ++ s.
Proof.
  intros [r E]. revert q E. induction ks as [|k ks IH]; intros q E.
  - symmetry in E. apply app_eq_nil in E. destruct E as [-> _]. exists [], []. auto.
  - destruct q as [|s q]; [exists [], (k :: ks); auto|]. cbn in E. injection E as <- E. destruct (IH q E) as (ks' & s' & -> & ->).
    exists (k :: ks'), s'. auto.
Qed.
Lemma field_keys_fields ks : field_keys (map SegField ks) = ks.
Proof. induction ks as [|k ks IH]; [reflexivity|]. change (k :: field_keys (map SegField ks) = k :: ks). rewrite IH. reflexivity. Qed.

Lemma denied_are_null Sc defs m vars j root op op' t errs M order vt ps d out o ks u :
  unique_names defs -> build Sc defs = inl m ->
  apply_authorization Sc m vars j root op false = Modified op' t errs ->
  Forall fields_only (op_sels op) ->
  from_operation M order root (op_sels op) = BOk ps ->
  comp_root M vt root (rebuild_nulled_plan t ps) d out ->
  In o (occs Sc vars (op_sels op) root []) -> ~ allowed Sc defs j (o_parent o) (o_name o) ->
  found out (field_keys (o_path o) ++ ks) u -> u = ONull /\ ks = [].
Proof.
  intros UN HB Ha Hf Hp Hc Ho Hd Hu.
  assert (Hq : exists r, t = from_paths (f_paths r) /\
     visit_all Sc vars (keep_field m (user_of m j)) (keep_fragment m (user_of m j)) (op_sels op) root [] = Some r).
  { unfold apply_authorization in Ha. destruct (meta_is_empty m); [discriminate|].
    destruct (u_auth (user_of m j) && _); [discriminate|].
    destruct (visit_all _ _ _ _ _ _ _) as [r|]; [|discriminate]. exists r. destruct (f_errors r); [discriminate|]. split; [congruence|reflexivity]. }
  destruct Hq as (r & -> & Hv).
  destruct (visit_all_covers _ _ _ _ _ _ _ _ Hv o Ho) as [(out' & nn & FI & K)|(q & Hq & C)].
  { exfalso. apply Hd. exact (proj1 (keep_field_iff Sc defs m UN HB j _ _ out' nn FI) K). }
  destruct (fields_only_paths Sc vars _ _ [] o Hf Ho) as (ko & Eo).
  pose proof (covers_prefix _ _ _ C) as Pq. rewrite Eo in Pq. destruct (prefix_fields _ _ Pq) as (kq & s & -> & ->).
  rewrite Eo, field_keys_fields in Hu. rewrite <- app_assoc in Hu. destruct (found_split _ _ _ _ Hu) as (w & H1 & H2).
  assert (Ew : w = ONull).
  { apply (root_hides M vt (f_paths r) root (rebuild_nulled_plan (from_paths (f_paths r)) ps) d out kq w); auto.
    - unfold rebuild_nulled_plan. rewrite Forall_map. pose proof (fields_only_bare M order root _ ps Hf Hp) as Hb.
      eapply Forall_impl; [|exact Hb]. intros p Hpb. apply bare_dark; [apply reaches_root|exact Hpb].
    - destruct C as [_ (mid & k & E)]. intros ->. destruct mid; discriminate. }
  subst w. apply found_null in H2. destruct H2 as [H2 H3]. apply app_eq_nil in H2. tauto.
Qed.
