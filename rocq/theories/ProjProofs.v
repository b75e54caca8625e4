(** The buffer machine of the response projection refines the tree specification. *)
From Coq Require Import String List NArith ZArith Arith Bool Lia.
From Verif Require Import StrOrd StrUtil JsonModel JsonWriterModel JsonText ProjModel ProjSpec.
Import ListNotations.
Local Open Scope string_scope.

Section PlanInd.
  Variable P : plan -> Prop.
  Hypothesis H : forall f k t n g c v,
    (forall sels, v = SData (Some sels) -> Forall P sels) -> P (Plan f k t n g c v).
  Fixpoint plan_ind' (p : plan) : P p :=
    match p with
    | Plan f k t n g c v =>
        H f k t n g c v
          (match v as v' return (forall sels, v' = SData (Some sels) -> Forall P sels) with
           | SData (Some l) =>
               fun sels E =>
                 match E in (_ = y) return (match y with SData (Some s) => Forall P s | _ => True end) with
                 | eq_refl => (fix go (l : list plan) : Forall P l :=
                                 match l with
                                 | [] => Forall_nil _
                                 | x :: l' => Forall_cons x (plan_ind' x) (go l')
                                 end) l
                 end
           | SData None => fun sels E => ltac:(discriminate E)
           | SNull => fun sels E => ltac:(discriminate E)
           end)
    end.
End PlanInd.

Lemma app_assoc_s (a b c : string) : (a ++ b) ++ c = a ++ b ++ c.
Proof. apply string_app_assoc. Qed.

Lemma join_map_false {A} (f : A -> string) (x : A) l :
  join "," (map f (x :: l)) = f x ++ fold_right (fun y s => "," ++ f y ++ s) "" l.
Proof.
  revert x. induction l as [|y l IH]; intros x.
  - cbn. rewrite string_app_nil_r. reflexivity.
  - change (join "," (map f (x :: y :: l))) with (f x ++ "," ++ join "," (map f (y :: l))).
    rewrite IH. reflexivity.
Qed.

Section R.
  Variable ryu : N -> string.
  Variable M : meta.
  Variable vtrue : string -> bool.

  Notation pv := (print_value ryu).
  Notation pr := (print ryu).
  Notation ser := (serialize ryu).

  Lemma serialize_ok v : forall buf, ser v buf = buf ++ pv v.
  Proof.
    induction v as [|fbits|iz|un|bb|str|raw|l IH|o IH] using value_ind'; intros buf;
      try reflexivity; [destruct bb; reflexivity| |].
    - cbn [serialize print_value].
      match goal with |- context [?f true l (buf ++ "[")] => set (go := f) end.
      assert (G : forall l, Forall (fun v => forall buf, ser v buf = buf ++ pv v) l ->
                  forall b, go false l b = b ++ fold_right (fun y s => "," ++ pv y ++ s) "" l).
      { clear. induction l as [|x l IH]; intros F b; cbn [go fold_right]; [symmetry; apply string_app_nil_r|].
        inversion F as [|? ? Hx Hl]; subst. rewrite Hx, IH by assumption.
        rewrite !app_assoc_s. reflexivity. }
      destruct l as [|x l].
      + cbn. rewrite app_assoc_s. reflexivity.
      + inversion IH as [|? ? Hx Hl]; subst. cbn [go]. rewrite Hx. fold go. rewrite G by assumption.
        rewrite join_map_false. rewrite !app_assoc_s. reflexivity.
    - cbn [serialize print_value].
      match goal with |- context [?f true o (buf ++ "{")] => set (go := f) end.
      set (m := fun kv : string * value => quoted (fst kv) ++ ":" ++ pv (snd kv)).
      assert (G : forall o, Forall (fun kv => forall buf, ser (snd kv) buf = buf ++ pv (snd kv)) o ->
                  forall b, go false o b = b ++ fold_right (fun y s => "," ++ m y ++ s) "" o).
      { clear. induction o as [|x o IH]; intros F b; cbn [go fold_right]; [symmetry; apply string_app_nil_r|].
        inversion F as [|? ? Hx Hl]; subst. rewrite Hx, IH by assumption. unfold m.
        rewrite !app_assoc_s. reflexivity. }
      destruct o as [|x o].
      + cbn. rewrite app_assoc_s. reflexivity.
      + inversion IH as [|? ? Hx Hl]; subst. cbn [go]. rewrite Hx. fold go. rewrite G by assumption.
        rewrite join_map_false. unfold m. rewrite !app_assoc_s. reflexivity.
  Qed.

  Lemma truncate_app b s : truncate (String.length b) (b ++ s) = b.
  Proof. unfold truncate. induction b as [|c b IH]; cbn; [destruct s; reflexivity|]. rewrite IH. reflexivity. Qed.

  Definition is_onull (t : out) : bool := match t with ONull => true | _ => false end.

  (** members printed by the loop, first one with an opening brace *)
  Definition mem (kv : string * out) : string := q1 ++ fst kv ++ q1 ++ ":" ++ pr (snd kv).
  Fixpoint members (first : bool) (kvs : list (string * out)) : string :=
    match kvs with
    | [] => ""
    | kv :: r => (if first then "{" else ",") ++ mem kv ++ members false r
    end.
  Lemma members_false kvs : members false kvs = fold_right (fun y s => "," ++ mem y ++ s) "" kvs.
  Proof. induction kvs as [|x r IH]; cbn [members fold_right]; [reflexivity|]. rewrite IH. reflexivity. Qed.
  Lemma print_obj kvs :
    pr (OObj kvs) = members true kvs ++ (match kvs with [] => "{}" | _ => "}" end).
  Proof.
    cbn [print]. fold mem. destruct kvs as [|x r]; [reflexivity|].
    rewrite join_map_false. cbn [members]. rewrite members_false, !app_assoc_s. reflexivity.
  Qed.

  Lemma key_prefix_eq p first buf :
    key_prefix p first buf = buf ++ (if first then "{" else ",") ++ q1 ++ p_key p ++ q1 ++ ":".
  Proof. unfold key_prefix, q1. destruct first; rewrite !app_assoc_s; reflexivity. Qed.

  (** What is known about a run of [project] on plan [p]. *)
  Definition good (p : plan) : Prop :=
    forall d nul pt buf errs prop buf' errs',
      project ryu M vtrue p d nul pt buf errs = Done prop buf' errs' ->
      exists t, comp M vtrue p nul pt d t /\ buf' = buf ++ pr t /\ prop = is_onull t.

  Lemma status_step q pt o :
    match (match p_guard q with
           | None => inl true
           | Some g => match pt with inl n => inl (tmatches g n) | inr e => inr e end
           end) with
    | inr e => field_status M vtrue q pt o = Stuck
    | inl false => field_status M vtrue q pt o = Absent
    | inl true =>
        match (match p_cond q with
               | None => COk
               | Some c => check vtrue c pt (resolve_type_name M q (get (p_key q) o) pt) (get (p_key q) o)
               end) with
        | EFatal e => field_status M vtrue q pt o = Stuck
        | ESkip | EParent => field_status M vtrue q pt o = Absent
        | EEnum | EField => field_status M vtrue q pt o = Invalid
        | COk => field_status M vtrue q pt o = Present
        end
    end.
  Proof.
    unfold field_status. destruct (p_guard q) as [g|].
    - destruct pt as [n|e]; [|reflexivity]. destruct (tmatches g n); [|reflexivity].
      destruct (p_cond q) as [c|]; [|reflexivity]. destruct (check _ _ _ _ _); reflexivity.
    - destruct (p_cond q) as [c|]; [|reflexivity]. destruct (check _ _ _ _ _); reflexivity.
  Qed.

  Lemma with_map_ok o pt : forall ps, Forall good ps ->
    forall first buf errs prop first' buf' errs',
      with_map M vtrue (project ryu M vtrue) o pt ps first buf errs = MDone prop first' buf' errs' ->
      if prop then
        (exists s, buf' = buf ++ s) /\
        exists q, In q ps /\ is_non_null (p_null q) = true /\ fieldc M vtrue q pt o ONull
      else
        exists kvs, fields M vtrue ps pt o kvs /\ buf' = buf ++ members first kvs /\
                    first' = (first && match kvs with [] => true | _ => false end)%bool.
  Proof.
    induction ps as [|q ps IH]; intros G first buf errs prop first' buf' errs' E.
    { cbn in E. injection E as <- <- <- <-. exists []. split; [constructor|]. cbn.
      rewrite string_app_nil_r, andb_true_r. auto. }
    inversion G as [|? ? Gq Gps]; subst. specialize (IH Gps).
    cbn [with_map] in E.
    pose proof (status_step q pt o) as S.
    destruct (match p_guard q with None => _ | Some g => _ end) as [[|]|e]; [| |discriminate E].
    2:{ apply IH in E. destruct prop.
        - destruct E as (A & q' & B & C). split; [exact A|]. exists q'. split; [right; exact B|exact C].
        - destruct E as (kvs & A & B). exists kvs. split; [apply fs_absent; assumption|exact B]. }
    cbv zeta in E.
    (* a member with value [t] printed, then the rest *)
    assert (Step : forall t errs1,
      fieldc M vtrue q pt o t ->
      (if is_onull t && is_non_null (p_null q) then MDone true false (key_prefix q first buf ++ pr t) errs1
       else with_map M vtrue (project ryu M vtrue) o pt ps false (key_prefix q first buf ++ pr t) errs1)
      = MDone prop first' buf' errs' ->
      if prop then
        (exists s, buf' = buf ++ s) /\
        exists q0, In q0 (q :: ps) /\ is_non_null (p_null q0) = true /\ fieldc M vtrue q0 pt o ONull
      else
        exists kvs, fields M vtrue (q :: ps) pt o kvs /\ buf' = buf ++ members first kvs /\
                    first' = (first && match kvs with [] => true | _ => false end)%bool).
    { intros t errs1 F R.
      destruct (is_onull t && is_non_null (p_null q))%bool eqn:X.
      - injection R as <- <- <- <-. apply andb_prop in X. destruct X as [X1 X2].
        destruct t; try discriminate X1. split.
        + rewrite key_prefix_eq, app_assoc_s. eexists. reflexivity.
        + exists q. split; [left; reflexivity|]. auto.
      - apply IH in R. destruct prop.
        + destruct R as ((s & A) & q' & B & C). split.
          * rewrite A, key_prefix_eq, !app_assoc_s. eexists. reflexivity.
          * exists q'. split; [right; exact B|exact C].
        + destruct R as (kvs & A & B & C). exists ((p_key q, t) :: kvs). split.
          * apply fs_shown; auto. intros ->. exact X.
          * split.
            -- rewrite B, key_prefix_eq. cbn [members mem fst snd]. unfold mem. cbn [fst snd].
               rewrite !app_assoc_s. reflexivity.
            -- rewrite C, andb_false_r. reflexivity. }
    destruct (match p_cond q with None => _ | Some c => _ end) eqn:K; try discriminate E.
    - (* ok *)
      destruct (p_val q) as [s|] eqn:V.
      + destruct (p_typename q) eqn:T.
        * destruct pt as [n|e]; [|discriminate E].
          apply (Step (OName n) errs); [eapply f_typename; eauto|exact E].
        * destruct (get (p_key q) o) as [v|] eqn:Gt.
          -- destruct (project ryu M vtrue q v (p_null q) pt (key_prefix q first buf) errs) as [pr1 b1 e1|e1] eqn:PE;
               [|discriminate E].
             destruct (Gq _ _ _ _ _ _ _ _ PE) as (t & A & B & C). subst b1 pr1.
             apply (Step t e1); [eapply f_value; eauto|exact E].
          -- apply (Step ONull errs); [eapply f_missing; eauto|exact E].
      + apply (Step ONull errs); [eapply f_nulled; eauto|exact E].
    - apply IH in E. destruct prop.
      + destruct E as (A & q' & B & C). split; [exact A|]. exists q'. split; [right; exact B|exact C].
      + destruct E as (kvs & A & B). exists kvs. split; [apply fs_absent; assumption|exact B].
    - apply IH in E. destruct prop.
      + destruct E as (A & q' & B & C). split; [exact A|]. exists q'. split; [right; exact B|exact C].
      + destruct E as (kvs & A & B). exists kvs. split; [apply fs_absent; assumption|exact B].
    - apply (Step ONull errs); [apply f_invalid; exact S|exact E].
    - apply (Step ONull (errs ++ [enum_error])%list); [apply f_invalid; exact S|exact E].
  Qed.

  Lemma project_ok p : good p.
  Proof.
    induction p as [f k ty nl g c v IHp] using plan_ind'. set (p := Plan f k ty nl g c v) in *.
    intros d. induction d as [|fbits|iz|un|bb|str|raw|l IH|o IH] using value_ind';
      intros nul pt buf errs prop buf' errs' E.
    1:{ cbn in E. injection E as <- <- <-. exists ONull. split; [constructor|auto]. }
    1-6: cbn [project p] in E; injection E as <- <- <-;
      eexists; split; [apply comp_leaf; exact I|]; split; [first [reflexivity|destruct bb; reflexivity]|reflexivity].
    - (* arrays *)
      cbn [project p] in E.
      match type of E with ?fx true l (buf ++ "[") errs = _ => set (go := fx) in E end.
      set (ishape := match list_item nul with Some i => i | None => nul end) in *.
      set (inn := match list_item nul with Some i => is_non_null i | None => false end) in *.
      assert (G : forall l' first b e prop buf' errs',
        Forall (fun d => forall nul pt buf errs prop buf' errs',
                  project ryu M vtrue p d nul pt buf errs = Done prop buf' errs' ->
                  exists t, comp M vtrue p nul pt d t /\ buf' = buf ++ pr t /\ prop = is_onull t) l' ->
        (exists s, b = buf ++ s) ->
        go first l' b e = Done prop buf' errs' ->
        (prop = true /\ buf' = buf ++ "null" /\ inn = true /\ exists x, In x l' /\ comp M vtrue p ishape pt x ONull) \/
        (prop = false /\ exists ts, Forall2 (comp M vtrue p ishape pt) l' ts /\ (inn = true -> ~ In ONull ts) /\
           buf' = b ++ (if first then join "," (map pr ts) else fold_right (fun y s => "," ++ pr y ++ s) "" ts) ++ "]")).
      { induction l' as [|x l' IHl]; intros first b e pr1 b1 e1 Fl Pre R.
        - cbn [go] in R. injection R as <- <- <-. right. split; [reflexivity|]. exists []. split; [constructor|].
          split; [auto|]. destruct first; reflexivity.
        - inversion Fl as [|? ? Fx Fl']; subst. cbn [go] in R. fold go in R.
          match type of R with match ?t with _ => _ end = _ => destruct t as [px bx ex|ex] eqn:PX end; [|discriminate R].
          destruct (Fx _ _ _ _ _ _ _ PX) as (t & A & B & C). subst bx px.
          destruct (is_onull t && inn)%bool eqn:N.
          + injection R as <- <- <-. apply andb_prop in N. destruct N as [N1 N2].
            destruct t; try discriminate N1. left. split; [reflexivity|]. split.
            * destruct Pre as [s ->]. destruct first; rewrite !app_assoc_s, truncate_app; reflexivity.
            * split; [exact N2|]. exists x. split; [left; reflexivity|exact A].
          + apply IHl in R; [|assumption|].
            2:{ destruct Pre as [s ->]. destruct first; rewrite !app_assoc_s; eexists; reflexivity. }
            destruct R as [(R1 & R2 & R3 & y & R4 & R5)|(R1 & ts & R2 & R3 & R4)].
            * left. repeat split; auto. exists y. split; [right; exact R4|exact R5].
            * right. split; [exact R1|]. exists (t :: ts). split; [constructor; assumption|]. split.
              -- intros Hn [->|Hin]; [cbn in N; congruence|exact (R3 Hn Hin)].
              -- rewrite R4. cbn [fold_right]. destruct first.
                 ++ rewrite join_map_false, !app_assoc_s. reflexivity.
                 ++ rewrite !app_assoc_s. reflexivity. }
      apply G in E; [|exact IH|eexists; reflexivity].
      destruct E as [(-> & -> & Hn & x & Hx & Cx)|(-> & ts & F2 & Hn & ->)].
      + exists ONull. split; [eapply comp_arr_null; eauto|]. auto.
      + exists (OArr ts). split; [apply comp_arr; auto|]. split; [|reflexivity].
        cbn [print]. rewrite app_assoc_s. reflexivity.
    - (* objects *)
      cbn [project p] in E. destruct v as [[sels|]|].
      + cbv zeta in E. fold (project ryu M vtrue) in E.
        match type of E with match ?t with _ => _ end = _ => destruct t as [pm fm bm em|em] eqn:PM end; [|discriminate E].
        apply with_map_ok in PM; [|apply IHp; reflexivity].
        destruct pm.
        * injection E as <- <- <-. destruct PM as ((s & ->) & q & A & B & C).
          exists ONull. split; [eapply comp_obj_null; [reflexivity|exact A|exact B|exact C]|].
          rewrite truncate_app. auto.
        * injection E as <- <- <-. destruct PM as (kvs & A & -> & ->).
          exists (OObj kvs). split; [eapply comp_obj; [reflexivity|exact A]|].
          split; [|reflexivity]. rewrite print_obj, app_assoc_s. destruct kvs; reflexivity.
      + pose proof (serialize_ok (VObj o) buf) as SO.
        injection E as <- <- <-. exists (OLeaf (VObj o)). split; [apply comp_whole; reflexivity|].
        split; [exact SO|reflexivity].
      + injection E as <- <- <-. exists ONull. split; [apply comp_nulled; reflexivity|]. auto.
  Qed.

  Definition data_prefix : string := "{" ++ q1 ++ "data" ++ q1 ++ ":".

  Lemma by_operation_ok ej d errs ext root ps text errs' :
    project_by_operation ryu M vtrue ej d errs ext root ps = inl (text, errs') ->
    exists t, comp_root M vtrue root ps d t /\
      text = "{" ++ (q1 ++ "data" ++ q1 ++ ":" ++ pr t)
             ++ (match errs' with [] => "" | _ => "," ++ q1 ++ "errors" ++ q1 ++ ":" ++ ej errs' end)
             ++ (match ext with None => "" | Some e => "," ++ q1 ++ "extensions" ++ q1 ++ ":" ++ e end) ++ "}".
  Proof.
    unfold project_by_operation. cbv zeta. intros E.
    change ("{" ++ String (chr 34) ("data" ++ String (chr 34) ":")) with data_prefix in E.
    remember data_prefix as bp eqn:Hbp.
    match type of E with match ?t with _ => _ end = _ => destruct t as [[b e]|e] eqn:D end; [|discriminate E].
    injection E as <- <-.
    assert (G : exists t, comp_root M vtrue root ps d t /\ b = bp ++ pr t).
    { destruct d; try (injection D as <- <-; exists ONull; split; [constructor; exact I|reflexivity]).
      match type of D with match ?t with _ => _ end = _ => destruct t as [pm fm bm em|em] eqn:PM end; [|discriminate D].
      apply with_map_ok in PM; [|apply Forall_forall; intros; apply project_ok].
      destruct pm; injection D as <- <-.
      - destruct PM as ((s & ->) & q & A & B & C). exists ONull. split; [eapply root_null; eauto|].
        rewrite truncate_app. reflexivity.
      - destruct PM as (kvs & A & -> & ->). exists (OObj kvs). split; [constructor; exact A|].
        rewrite print_obj. rewrite !app_assoc_s. destruct kvs; reflexivity. }
    destruct G as (t & Ct & ->). exists t. split; [exact Ct|]. subst bp. unfold data_prefix, q1.
    destruct e; destruct ext; rewrite ?app_assoc_s; reflexivity.
  Qed.
End R.
