(* Rules that keep something from call to call, fragments that can apply, and all rules together. *)
From Coq Require Import String List Bool Arith Lia.
From Verif Require Import StrUtil Ast ConsumerModel IntroModel CondModel NormModel NormProofs WalkModel LocalModel LocalSpec WalkProofs LocalBase LocalRun LocalProofs.
Import ListNotations.
Local Open Scope string_scope.
Local Open Scope list_scope.

Lemma silent_run : forall {E S} (step : S -> call -> S * list E) b, (forall s x, In x b -> step s x = (s, [])) ->
  forall s, out step s b = [] /\ fin step s b = s.
Proof.
  intros E S step b. induction b as [|x b IH]; intros H s; [split; reflexivity|].
  rewrite out_cons, fin_cons, (H s x (or_introl eq_refl)). cbn. apply IH. intros s' y Y. apply H. now right.
Qed.
Lemma mute_run : forall {E S} (step : S -> call -> S * list E) b, (forall s x, In x b -> snd (step s x) = []) ->
  forall s, out step s b = [].
Proof.
  intros E S step b. induction b as [|x b IH]; intros H s; [reflexivity|].
  rewrite out_cons, (H s x (or_introl eq_refl)). cbn. apply IH. intros s' y Y. apply H. now right.
Qed.

Definition uv : list string -> call -> list string * list lerr := v_step unique_variable_names.
Definition kd (sch : list definition) : option string -> call -> option string * list lerr := v_step (known_directives sch).
Definition ka (sch : list definition) : option (parent * list input_value) -> call -> option (parent * list input_value) * list lerr := v_step (known_argument_names sch).
Section State.
  Variable sch : list definition.
  Variable doc : list qdef.
  Hypothesis WF : well_formed sch.
  Variable l : list call.
  Hypothesis W : walk sch doc = Some l.
  Let T := starts sch doc l W.

  (* unique_variable_names *)
  Lemma uv_op : forall s c k n ds vs set, uv s (c, EnterOp k n ds vs set) = ([], []).
  Proof. reflexivity. Qed.
  Lemma uv_frag : forall s c n tc ds set, uv s (c, EnterFrag n tc ds set) = (s, []).
  Proof. reflexivity. Qed.
  Lemma uv_skip : forall x, match snd x with EnterOp _ _ _ _ _ | EnterVariable _ => False | _ => True end -> forall s, uv s x = (s, []).
  Proof. intros [c x] H s. now destruct x. Qed.
  Lemma uv_vars : forall c vs s, forall e, In e (out uv s (flat_map (walk_variable sch c) vs)) <->
    exists n, e = TwoVariables n /\ ((In n s /\ In n (map vd_name vs)) \/ twice_in (map vd_name vs) n).
  Proof.
    intros c vs. induction vs as [|v vs IH]; intros s e.
    - split; [intros []|]. intros (k & _ & [[_ []]|K]). now apply not_twice_nil in K.
    - cbn [flat_map map]. rewrite out_app.
      assert (Q : out uv s (walk_variable sch c v) = (if smem (vd_name v) s then [TwoVariables (vd_name v)] else []) /\
                  fin uv s (walk_variable sch c v) = (if smem (vd_name v) s then s else vd_name v :: s)).
      { unfold walk_variable. cbv zeta. rewrite out_cons, fin_cons.
        assert (Z : forall s1, out uv s1 (match vd_default v with Some x => walk_value sch (with_input c (Some (vd_type v)) false) x | None => [] end) = [] /\
          fin uv s1 (match vd_default v with Some x => walk_value sch (with_input c (Some (vd_type v)) false) x | None => [] end) = s1).
        { apply silent_run. intros s' x I. apply uv_skip. destruct (vd_default v); [|destruct I]. apply value_valued in I. now destruct (snd x). }
        destruct (Z (fst (uv s (with_input c (Some (vd_type v)) false, EnterVariable v)))) as [Z1 Z2].
        split; [etransitivity; [apply f_equal; exact Z1|]|etransitivity; [exact Z2|]]; unfold uv; cbn; destruct (smem (vd_name v) s); reflexivity. }
      destruct Q as [-> ->]. rewrite in_app_iff, IH. destruct (smem (vd_name v) s) eqn:M.
      + apply smem_iff in M. split.
        * intros [[<-|[]]|(k' & -> & K)]; [exists (vd_name v); split; [reflexivity|]; left; split; [exact M|now left]|].
          exists k'. split; [reflexivity|]. rewrite twice_cons. destruct K as [[A B]|K]; [left; split; [exact A|now right]|right; now right].
        * intros (k' & -> & [[A [<-|B]]|K]); [left; now left|right; exists k'; split; [reflexivity|left; now split]|].
          apply twice_cons in K. destruct K as [[-> B]|K]; right; eexists; (split; [reflexivity|]); [left; now split|now right].
      + assert (M' : ~ In (vd_name v) s) by (intros X; apply smem_iff in X; congruence). split.
        * intros [[]|(k' & -> & K)]. exists k'. split; [reflexivity|]. rewrite twice_cons. destruct K as [[[<-|A] B]|K].
          -- right; left. now split.
          -- left. split; [exact A|now right].
          -- right; now right.
        * intros (k' & -> & K). right. exists k'. split; [reflexivity|]. rewrite twice_cons in K. destruct K as [[A [<-|B]]|[[-> B]|K]].
          -- contradiction.
          -- left. split; [now right|exact B].
          -- left. split; [now left|exact B].
          -- now right.
  Qed.
  Lemma deep_skip : forall x, directing (snd x) = true \/ is_enter (snd x) = true \/ snd x = LeaveField \/ snd x = LeaveSpread \/ snd x = LeaveInline -> forall s, uv s x = (s, []).
  Proof. intros [c x] H s. apply uv_skip. cbn in *. destruct x; try exact I; destruct H as [H|[H|[H|[H|H]]]]; discriminate H. Qed.
  Lemma unique_variable_names_ok : forall e, In e (errors_of unique_variable_names l) <->
    exists n k name ds vs set, e = TwoVariables n /\ In (QOp k name ds vs set) doc /\ twice_in (map vd_name vs) n.
  Proof.
    intros e. set (locd := fun (_ : option tnode) d => match d with QOp _ _ _ vs _ => out uv [] (flat_map (walk_variable sch no_ctx) vs) | QFrag _ _ _ _ => [] end).
    assert (H : forall s ty d, In e (out uv s (head sch d ty)) <-> In e (locd ty d)).
    { intros s ty [n tc ds set|k n ds vs set]; cbn [head locd]; rewrite out_cons.
      - rewrite uv_frag. cbn [fst snd app]. destruct (silent_run uv (walk_directives sch (def_ctx ty) ds)) with (s := s) as [Q _].
        + intros s' x I. apply deep_skip. left. now apply directives_directing in I.
        + rewrite Q. split; intros [].
      - rewrite uv_op. cbn [fst snd app]. rewrite out_app.
        destruct (silent_run uv (walk_directives sch (def_ctx ty) ds)) with (s := @nil string) as [Q Q'].
        + intros s' x I. apply deep_skip. left. now apply directives_directing in I.
        + rewrite Q, Q'. cbn [app]. rewrite !uv_vars. reflexivity. }
    assert (P : forall s ty y, out uv s (pre sch ty y) = []).
    { intros s ty y. apply (silent_run uv (pre sch ty y)). intros s' x I. apply deep_skip. destruct (directing (snd x)) eqn:D; [now left|].
      apply pre_high in I; [|exact D]. subst x. right; left. now destruct y. }
    transitivity ((exists ty d, In d doc /\ start_type sch d = Some ty /\ In e (locd ty d)) \/ (exists ty set y, occurs sch doc ty set /\ In y set /\ In e (@nil lerr))).
    - split.
      + apply (all_less sch doc WF l W lerr _ uv (fun _ _ => []) locd).
        * intros s c. now split.
        * intros s d ty. now destruct d.
        * intros s y ty. now destruct y.
        * intros s ty set y _ _ K. rewrite P in K. destruct K.
        * intros s ty d _ K. now apply H in K.
      + apply (all_more sch doc WF l W lerr _ uv (fun _ _ => []) locd).
        * intros s ty y [].
        * intros s ty d K. now apply H.
    - split.
      + intros [(ty & d & D & S & K)|(ty & set & y & _ & _ & [])]. destruct d as [|k name ds vs set]; [destruct K|]. cbn [locd] in K. apply uv_vars in K.
        destruct K as (n & -> & [[[] _]|K]). exists n, k, name, ds, vs, set. auto.
      + intros (n & k & name & ds & vs & set & -> & I & K). left. destruct (start_type sch (QOp k name ds vs set)) as [ty|] eqn:S; [|now destruct (T _ I)].
        exists ty, (QOp k name ds vs set). split; [exact I|]. split; [exact S|]. cbn [locd]. apply uv_vars. exists n. split; [reflexivity|now right].
  Qed.

  (* known_directives *)
  Definition misplaced (loc : string) (d : directive) : list lerr :=
    match known_directive sch (d_name d) None with
    | Some dd => if smem loc (dd_locations dd) then [] else [Misplaced (d_name d) loc]
    | None => [UnknownDirective (d_name d)]
    end.
  Lemma kd_skip : forall s x, argued (snd x) = true \/ snd x = LeaveDirective \/ (exists v, snd x = EnterVariable v) -> (kd sch) s x = (s, []).
  Proof. intros s [c x] H. cbn in *. destruct x; try reflexivity; destruct H as [H|[H|[v H]]]; discriminate H. Qed.
  Lemma kd_enter : forall s ty y, kd sch s (enter sch ty y) = (Some (loc_of y), []).
  Proof. now intros s ty []. Qed.
  Lemma kd_op : forall s c k n ds vs set, kd sch s (c, EnterOp k n ds vs set) = (Some (location k), []).
  Proof. now intros s c []. Qed.
  Lemma kd_frag : forall s c n tc ds set, kd sch s (c, EnterFrag n tc ds set) = (Some "FRAGMENT_DEFINITION", []).
  Proof. reflexivity. Qed.
  Lemma kd_directives : forall c ds loc, out (kd sch) (Some loc) (walk_directives sch c ds) = flat_map (misplaced loc) ds /\ fin (kd sch) (Some loc) (walk_directives sch c ds) = Some loc.
  Proof.
    intros c ds loc. induction ds as [|d ds [I1 I2]]; [split; reflexivity|]. unfold walk_directives. cbn [flat_map]. rewrite out_app, fin_app.
    assert (Q : out (kd sch) (Some loc) (walk_directive sch c d) = misplaced loc d /\ fin (kd sch) (Some loc) (walk_directive sch c d) = Some loc).
    { unfold walk_directive. rewrite out_cons, fin_cons. change (kd sch (Some loc) (c, EnterDirective d)) with (Some loc, misplaced loc d). cbn [fst snd].
      destruct (silent_run (kd sch) (walk_arguments sch c (option_map dd_args (directive_by_name sch (d_name d))) (d_args d) ++ [(c, LeaveDirective)])) with (s := Some loc) as [-> ->].
      - intros s x I. apply kd_skip. apply in_app_iff in I. destruct I as [I|[<-|[]]]; [left; now apply arguments_argued in I|right; now left].
      - rewrite app_nil_r. split; reflexivity. }
    destruct Q as [-> ->]. fold (walk_directives sch c ds). now rewrite I1, I2.
  Qed.
  Lemma kd_pre : forall s ty y, out (kd sch) s (pre sch ty y) = flat_map (misplaced (loc_of y)) (dirs_of y).
  Proof.
    intros s ty y. unfold pre. rewrite out_cons, kd_enter. cbn [fst snd app]. destruct y as [al n args ds sub|n ds|tc ds sub]; cbn [loc_of dirs_of].
    - rewrite out_app. destruct (silent_run (kd sch) (walk_arguments sch (in_field sch ty n) (option_map f_args (found sch ty n)) args)) with (s := Some "FIELD") as [-> ->].
      + intros s' x I. apply kd_skip. left. now apply arguments_argued in I.
      + apply kd_directives.
    - apply kd_directives.
    - apply kd_directives.
  Qed.
  Lemma kd_head : forall s ty d, out (kd sch) s (head sch d ty) = flat_map (misplaced (def_loc d)) (def_dirs d).
  Proof.
    intros s ty d. destruct d as [n tc ds set|k n ds vs set]; cbn [head]; rewrite out_cons, ?kd_op, ?kd_frag; cbn [def_loc def_dirs fst snd app].
    - apply kd_directives.
    - rewrite out_app. destruct (kd_directives (def_ctx ty) ds (location k)) as [-> ->].
      destruct (silent_run (kd sch) (flat_map (walk_variable sch (def_ctx ty)) vs)) with (s := Some (location k)) as [-> _]; [|now rewrite app_nil_r].
      intros s' x I. apply kd_skip. apply variables_valued in I. destruct I as [I|(v & _ & ->)]; [left; now destruct (snd x)|right; right; now exists v].
  Qed.
  Lemma misplaced_in : forall loc d e, In e (misplaced loc d) <->
    (e = UnknownDirective (d_name d) /\ ~ In (d_name d) (directive_names sch)) \/
    (e = Misplaced (d_name d) loc /\ exists args rep ls, defines sch (d_name d) args rep ls /\ ~ In loc ls).
  Proof.
    intros loc d e. unfold misplaced. rewrite known_directive_same by apply (wf_directives _ WF).
    assert (DN : forall n, In n (directive_names sch) <-> exists args rep ls, defines sch n args rep ls).
    { intros n. unfold directive_names, defines. rewrite in_flat_map. split.
      - intros (x & I & K). destruct x as [| | |m desc args rep ls]; try destruct K. subst m. exists args, rep, ls, desc. exact I. contradiction.
      - intros (args & rep & ls & desc & I). eexists. split; [exact I|now left]. }
    destruct (directive_by_name sch (d_name d)) as [dd|] eqn:D.
    - apply directive_by_name_ok in D; [|apply (wf_directives _ WF)]. destruct D as [_ D]. destruct (smem loc (dd_locations dd)) eqn:M.
      + apply smem_iff in M. split; [intros []|]. intros [[_ N]|(_ & a & r & ls & K & N)].
        * destruct N. apply DN. eauto.
        * destruct (directive_unique _ WF _ _ _ _ _ _ _ D K) as (_ & _ & <-). contradiction.
      + split.
        * intros [<-|[]]. right. split; [reflexivity|]. exists (dd_args dd), (dd_repeatable dd), (dd_locations dd). split; [exact D|]. intros X. apply smem_iff in X. congruence.
        * intros [[_ N]|(-> & _)]; [|now left]. destruct N. apply DN. eauto.
    - assert (N : ~ In (d_name d) (directive_names sch)).
      { intros K. apply DN in K. destruct K as (a & r & ls & K).
        assert (X : directive_by_name sch (d_name d) = Some (mkddef (d_name d) a r ls)) by (apply directive_by_name_ok; [apply (wf_directives _ WF)|split; [reflexivity|exact K]]). congruence. }
      split; [intros [<-|[]]; left; now split|]. intros [(-> & _)|(_ & a & r & ls & K & _)]; [now left|]. destruct N. apply DN. eauto.
  Qed.
  Lemma known_directives_ok : forall e, In e (errors_of (known_directives sch) l) <->
    exists loc ds d, directed doc loc ds /\ In d ds /\
      ((e = UnknownDirective (d_name d) /\ ~ In (d_name d) (directive_names sch)) \/
       (e = Misplaced (d_name d) loc /\ exists args rep ls, defines sch (d_name d) args rep ls /\ ~ In loc ls)).
  Proof.
    intros e. set (locd := fun (_ : option tnode) d => flat_map (misplaced (def_loc d)) (def_dirs d)).
    set (loc := fun (_ : option tnode) y => flat_map (misplaced (loc_of y)) (dirs_of y)).
    transitivity ((exists ty d, In d doc /\ start_type sch d = Some ty /\ In e (locd ty d)) \/ (exists ty set y, occurs sch doc ty set /\ In y set /\ In e (loc ty y))).
    - split.
      + apply (all_less sch doc WF l W lerr _ (kd sch) loc locd).
        * intros s c. now split.
        * intros s d ty. now destruct d.
        * intros s y ty. now destruct y.
        * intros s ty set y _ _ K. now rewrite kd_pre in K.
        * intros s ty d _ K. now rewrite kd_head in K.
      + apply (all_more sch doc WF l W lerr _ (kd sch) loc locd).
        * intros s ty y K. now rewrite kd_pre.
        * intros s ty d K. now rewrite kd_head.
    - split.
      + intros [(ty & d & D & S & K)|(ty & set & y & O & Y & K)].
        * apply in_flat_map in K. destruct K as (x & I & K). apply misplaced_in in K. exists (def_loc d), (def_dirs d), x. split; [|now split].
          apply directed_iff. left. now exists d.
        * apply in_flat_map in K. destruct K as (x & I & K). apply misplaced_in in K. exists (loc_of y), (dirs_of y), x. split; [|now split].
          apply directed_iff. right. exists y. split; [|now split]. apply (item_iff _ WF _ T). now exists ty, set.
      + intros (lc & ds & d & D & I & K). apply misplaced_in in K. apply directed_iff in D. destruct D as [(d0 & D & -> & ->)|(y & Y & -> & ->)].
        * left. destruct (start_type sch d0) as [ty|] eqn:S; [|now destruct (T _ D)]. exists ty, d0. split; [exact D|]. split; [exact S|].
          apply in_flat_map. now exists d.
        * right. apply (item_iff _ WF _ T) in Y. destruct Y as (ty & set & O & Y). exists ty, set, y. split; [exact O|]. split; [exact Y|].
          apply in_flat_map. now exists d.
  Qed.

  (* known_argument_names *)
  Definition held (s : option (parent * list input_value)) (a : string) : list lerr :=
    match s with
    | Some (p, args) =>
        if existsb (fun v => String.eqb (iv_name v) a) args then []
        else match p with OfField f t => [UnknownFieldArgument a (type_name t) f] | OfDirective d => [UnknownDirectiveArgument a d] end
    | None => []
    end.
  Lemma ka_skip : forall s x, valued (snd x) = true \/ (exists v, snd x = EnterVariable v) -> (ka sch) s x = (s, []).
  Proof. intros s [c x] H. cbn in *. destruct x; try reflexivity; destruct H as [H|[u H]]; discriminate H. Qed.
  Definition of_directive (s : option (parent * list input_value)) (d : directive) : option (parent * list input_value) :=
    match directive_by_name sch (d_name d) with Some dd => Some (OfDirective (dd_name dd), dd_args dd) | None => s end.
  Definition of_field (s : option (parent * list input_value)) (ty : option tnode) (n : string) : option (parent * list input_value) :=
    match typed sch ty with Some t => match field_by_name t n with Some f => Some (OfField (f_name f) t, f_args f) | None => s end | None => s end.
  Lemma ka_arg : forall s c n v, ka sch s (c, EnterArgument n v) = (s, held s n).
  Proof. reflexivity. Qed.
  Lemma ka_dir : forall s c d, ka sch s (c, EnterDirective d) = (of_directive s d, []).
  Proof. reflexivity. Qed.
  Lemma ka_field : forall s ty al n args ds sub, ka sch s (in_field sch ty n, EnterField al n args ds sub) = (of_field s ty n, []).
  Proof. reflexivity. Qed.
  Lemma ka_op : forall s c k n ds vs set, ka sch s (c, EnterOp k n ds vs set) = (s, []).
  Proof. reflexivity. Qed.
  Lemma ka_frag : forall s c n tc ds set, ka sch s (c, EnterFrag n tc ds set) = (s, []).
  Proof. reflexivity. Qed.
  Lemma ka_arguments : forall c defs args s, out (ka sch) s (walk_arguments sch c defs args) = flat_map (fun a => held s (fst a)) args /\ fin (ka sch) s (walk_arguments sch c defs args) = s.
  Proof.
    intros c defs args. induction args as [|a args IH]; intros s; [split; reflexivity|]. unfold walk_arguments. cbn [flat_map]. rewrite out_app, fin_app.
    assert (Q : out (ka sch) s (walk_argument sch c defs a) = held s (fst a) /\ fin (ka sch) s (walk_argument sch c defs a) = s).
    { unfold walk_argument. cbv zeta. rewrite out_cons, fin_cons, ka_arg. cbn [fst snd].
      match goal with |- context [walk_value sch ?c' (snd a)] => destruct (silent_run (ka sch) (walk_value sch c' (snd a))) with (s := s) as [Q1 Q2] end.
      - intros s' x I. apply ka_skip. left. now apply value_valued in I.
      - rewrite Q1, Q2. split; [|reflexivity]. unfold held. now rewrite app_nil_r. }
    destruct Q as [-> ->]. fold (walk_arguments sch c defs args). now destruct (IH s) as [-> ->].
  Qed.
  Lemma ka_directive : forall c d s, out (ka sch) s (walk_directive sch c d) = flat_map (fun a => held (of_directive s d) (fst a)) (d_args d).
  Proof.
    intros c d s. unfold walk_directive. rewrite out_cons, ka_dir. cbn [fst snd app]. rewrite out_app.
    destruct (ka_arguments c (option_map dd_args (directive_by_name sch (d_name d))) (d_args d) (of_directive s d)) as [-> ->].
    now rewrite out_one, app_nil_r.
  Qed.
  Lemma ka_directives : forall c ds s e, In e (out (ka sch) s (walk_directives sch c ds)) ->
    exists s' d a, In d ds /\ In a (d_args d) /\ In e (held (of_directive s' d) (fst a)).
  Proof.
    intros c ds. induction ds as [|d ds IH]; intros s e K; [destruct K|]. unfold walk_directives in K. cbn [flat_map] in K. rewrite out_app, in_app_iff, ka_directive in K.
    destruct K as [K|K].
    - apply in_flat_map in K. destruct K as (a & A & K). exists s, d, a. split; [now left|]. now split.
    - apply IH in K. destruct K as (s' & d' & a & D & K). exists s', d', a. split; [now right|]. exact K.
  Qed.
  Lemma ka_directives_more : forall c ds s e d a, In d ds -> In a (d_args d) -> (forall s', In e (held (of_directive s' d) (fst a))) ->
    In e (out (ka sch) s (walk_directives sch c ds)).
  Proof.
    intros c ds. induction ds as [|d' ds IH]; intros s e d a D A K; [destruct D|]. unfold walk_directives. cbn [flat_map]. rewrite out_app, in_app_iff, ka_directive.
    destruct D as [->|D]; [left; apply in_flat_map; exists a; split; [exact A|apply K]|right; eapply IH; eassumption].
  Qed.
  Lemma ka_pre : forall s ty y, out (ka sch) s (pre sch ty y) =
    match y with
    | NField al n args ds sub => flat_map (fun a => held (of_field s ty n) (fst a)) args ++ out (ka sch) (of_field s ty n) (walk_directives sch (in_field sch ty n) ds)
    | NSpread n ds => out (ka sch) s (walk_directives sch (at_type sch ty) ds)
    | NInline tc ds sub => out (ka sch) s (walk_directives sch (in_inline sch ty tc) ds)
    end.
  Proof.
    intros s ty y. unfold pre. rewrite out_cons. destruct y as [al n args ds sub|n ds|tc ds sub]; [|reflexivity|reflexivity].
    cbn [enter]. rewrite ka_field. cbn [fst snd app]. rewrite out_app.
    now destruct (ka_arguments (in_field sch ty n) (option_map f_args (found sch ty n)) args (of_field s ty n)) as [-> ->].
  Qed.
  Lemma held_some : forall p args a e, In e (held (Some (p, args)) a) <-> ~ In a (map iv_name args) /\
    e = match p with OfField f t => UnknownFieldArgument a (type_name t) f | OfDirective d => UnknownDirectiveArgument a d end.
  Proof.
    intros p args a e. unfold held. destruct (existsb _ args) eqn:X.
    - apply existsb_exists in X. destruct X as (v & I & E). apply String.eqb_eq in E. split; [intros []|]. intros [N _]. destruct N. rewrite <- E. now apply in_map.
    - assert (N : ~ In a (map iv_name args)).
      { intros K. apply in_map_iff in K. destruct K as (v & E & I). assert (existsb (fun v => String.eqb (iv_name v) a) args = true); [|congruence].
        apply existsb_exists. exists v. split; [exact I|]. now apply String.eqb_eq. }
      destruct p; (split; [intros [<-|[]]; now split|intros [_ ->]; now left]).
  Qed.
  Lemma defined_by_name : forall n args rep ls, defines sch n args rep ls -> directive_by_name sch n = Some (mkddef n args rep ls).
  Proof. intros n args rep ls D. apply directive_by_name_ok; [apply (wf_directives _ WF)|]. split; [reflexivity|exact D]. Qed.
  Definition ka_loc (e : lerr) (ty : option tnode) (y : nsel) : list lerr := if existsb (fun _ => true) [y] then [e] else [].
  Lemma known_argument_names_complete : forall e, bad_argument sch doc e -> In e (errors_of (known_argument_names sch) l).
  Proof.
    intros e B.
    (* the places where [e] is due *)
    assert (FIELD : forall al n args ds sub ty s a, (forall s', In e (held (of_field s' ty n) a)) -> In a (map fst args) ->
      In e (out (ka sch) s (pre sch ty (NField al n args ds sub)))).
    { intros al n args ds sub ty s a K A. rewrite ka_pre. apply in_app_iff. left. apply in_map_iff in A. destruct A as (p & <- & A). apply in_flat_map. exists p. split; [exact A|apply K]. }
    destruct B as [(ty & n & args & sub & t & f & a & -> & (set & al & ds & O & J) & S & F & FN & A & N)|(d & defs & rep & ls & a & -> & U & D & A & N)].
    - assert (OF : forall s', of_field s' ty n = Some (OfField n t, f_args f)).
      { intros s'. unfold of_field. pose proof (proj2 (typed_ok _ WF _ _) S) as TE. rewrite TE. pose proof S as (u & _ & NM).
        destruct NM as [NI _]. assert (FB : field_by_name t n = Some f) by (apply (by_field _ WF); [exact NI|now split]). rewrite FB. now rewrite FN. }
      apply (occurs_iff _ WF _ T) in O. destruct O as (d & ty0 & DI & ST & NI).
      pose (loc := fun ty' y => match y with NField _ n' args' _ _ => if existsb (fun p => String.eqb (fst p) a) args' then held (of_field None ty' n') a else [] | _ => [] end).
      set (E := UnknownFieldArgument a (type_name t) n).
      assert (M : forall s ty' y, In E (loc ty' y) -> In E (out (ka sch) s (pre sch ty' y))).
      { intros s ty' y K. destruct y as [al' n' args' ds' sub'| |]; try destruct K. cbn [loc] in K. destruct (existsb _ args') eqn:X; [|destruct K].
        apply existsb_exists in X. destruct X as (p & P & PE). apply String.eqb_eq in PE.
        rewrite ka_pre. apply in_app_iff. left. apply in_flat_map. exists p. split; [exact P|]. rewrite PE. revert K. unfold of_field.
        destruct (typed sch ty') as [t'|]; [|intros []]. destruct (field_by_name t' n') as [f'|]; [|intros []]. easy. }
      apply (all_more sch doc WF l W lerr _ (ka sch) loc (fun _ _ => []) E M); [intros s ty' d' []|]. right. exists ty, set, (NField al n args ds sub).
      split; [apply (occurs_iff _ WF _ T); now exists d, ty0|]. split; [exact J|]. cbn [loc].
      assert (X : existsb (fun p : string * gvalue => String.eqb (fst p) a) args = true).
      { apply in_map_iff in A. destruct A as (p & <- & A). apply existsb_exists. exists p. split; [exact A|apply String.eqb_refl]. }
      rewrite X, OF. apply held_some. now split.
    - set (E := UnknownDirectiveArgument a (d_name d)).
      pose (due := fun ds : list directive => flat_map (fun d' => flat_map (fun p => held (of_directive None d') (fst p)) (d_args d')) ds).
      assert (M : forall ds c s, In E (due ds) -> In E (out (ka sch) s (walk_directives sch c ds))).
      { intros ds c s K. apply in_flat_map in K. destruct K as (d' & D' & K). apply in_flat_map in K. destruct K as (p & P & K).
        eapply ka_directives_more; [exact D'|exact P|]. intros s'. revert K. unfold of_directive. destruct (directive_by_name sch (d_name d')); [easy|intros []]. }
      pose (loc := fun (_ : option tnode) y => due (dirs_of y)). pose (locd := fun (_ : option tnode) d0 => due (def_dirs d0)).
      assert (X : forall ds, In d ds -> In E (due ds)).
      { intros ds I. apply in_flat_map. exists d. split; [exact I|]. apply in_map_iff in A. destruct A as (p & <- & A). apply in_flat_map. exists p. split; [exact A|].
        unfold of_directive. rewrite (defined_by_name _ _ _ _ D). apply held_some. now split. }
      apply (all_more sch doc WF l W lerr _ (ka sch) loc locd).
      + intros s ty y K. rewrite ka_pre. destruct y; [apply in_app_iff; right|..]; now apply M.
      + intros s ty d0 K. destruct d0 as [n' tc ds' set|k n' ds' vs set]; cbn [head]; rewrite out_cons; apply in_app_iff; right; rewrite ?ka_op, ?ka_frag; cbn [fst].
        * now apply M.
        * rewrite out_app. apply in_app_iff. left. now apply M.
      + destruct U as (lc & ds & U & I). apply directed_iff in U. destruct U as [(d0 & D0 & -> & ->)|(y & Y & -> & ->)].
        * left. destruct (start_type sch d0) as [ty|] eqn:S; [|now destruct (T _ D0)]. exists ty, d0. split; [exact D0|]. split; [exact S|]. now apply X.
        * right. apply (item_iff _ WF _ T) in Y. destruct Y as (ty & set & O & Y). exists ty, set, y. split; [exact O|]. split; [exact Y|]. now apply X.
  Qed.
  Lemma known_argument_names_sound : arguments_known sch doc -> forall e, In e (errors_of (known_argument_names sch) l) -> bad_argument sch doc e.
  Proof.
    intros [KF KD] e K.
    pose (loc := fun (ty : option tnode) y => match y with
       | NField _ n args ds _ => flat_map (fun a => held (of_field None ty n) (fst a)) args ++ flat_map (fun d' => flat_map (fun p => held (of_directive None d') (fst p)) (d_args d')) ds
       | _ => flat_map (fun d' => flat_map (fun p => held (of_directive None d') (fst p)) (d_args d')) (dirs_of y) end).
    pose (locd := fun (_ : option tnode) d => flat_map (fun d' => flat_map (fun p => held (of_directive None d') (fst p)) (d_args d')) (def_dirs d)).
    assert (DN : forall n, In n (directive_names sch) -> exists args rep ls, defines sch n args rep ls).
    { intros n I. unfold directive_names in I. apply in_flat_map in I. destruct I as (x & I & J). destruct x as [| | |m desc args rep ls]; try destruct J as []. subst m. exists args, rep, ls, desc. exact I. contradiction. }
    assert (DIR : forall c ds s, (forall d, In d ds -> directive_used doc d) -> In e (out (ka sch) s (walk_directives sch c ds)) ->
      In e (flat_map (fun d' => flat_map (fun p => held (of_directive None d') (fst p)) (d_args d')) ds)).
    { intros c ds s U J. apply ka_directives in J. destruct J as (s' & d & a & D & A & J). apply in_flat_map. exists d. split; [exact D|]. apply in_flat_map. exists a. split; [exact A|].
      destruct (DN (d_name d)) as (args & rep & ls & DF); [apply KD; [now apply U|intros Z; rewrite Z in A; destruct A]|].
      revert J. unfold of_directive. now rewrite (defined_by_name _ _ _ _ DF). }
    assert (DUE : forall d, directive_used doc d -> In e (flat_map (fun p => held (of_directive None d) (fst p)) (d_args d)) -> bad_argument sch doc e).
    { intros d U J. apply in_flat_map in J. destruct J as (p & P & J).
      destruct (DN (d_name d)) as (args & rep & ls & DF); [apply KD; [exact U|intros Z; rewrite Z in P; destruct P]|].
      unfold of_directive in J. rewrite (defined_by_name _ _ _ _ DF) in J. apply held_some in J. destruct J as [N ->]. right. exists d, args, rep, ls, (fst p).
      split; [reflexivity|]. split; [exact U|]. split; [exact DF|]. split; [now apply in_map|exact N]. }
    assert (USED : forall y, item doc y -> forall d, In d (dirs_of y) -> directive_used doc d).
    { intros y Y d D. exists (loc_of y), (dirs_of y). split; [|exact D]. apply directed_iff. right. now exists y. }
    assert (USEDD : forall d0, In d0 doc -> forall d, In d (def_dirs d0) -> directive_used doc d).
    { intros d0 Y d D. exists (def_loc d0), (def_dirs d0). split; [|exact D]. apply directed_iff. left. now exists d0. }
    apply (all_less sch doc WF l W lerr _ (ka sch) loc locd) in K.
    - destruct K as [(ty & d & D & S & K)|(ty & set & y & O & Y & K)].
      + apply in_flat_map in K. destruct K as (d' & D' & K). eapply DUE; [|exact K]. now apply (USEDD d).
      + assert (I : item doc y) by (apply (item_iff _ WF _ T); now exists ty, set).
        destruct y as [al n args ds sub|n ds|tc ds sub]; cbn [loc] in K.
        * apply in_app_iff in K. destruct K as [K|K].
          -- apply in_flat_map in K. destruct K as (p & P & K). unfold of_field in K. destruct (typed sch ty) as [t|] eqn:TE; [|destruct K].
             destruct (field_by_name t n) as [f|] eqn:FB; [|destruct K]. apply held_some in K. destruct K as [N ->].
             apply (typed_ok _ WF) in TE. pose proof TE as (u & _ & NM & _). apply (by_field _ WF _ _ _ NM) in FB. destruct FB as [FI FN]. subst n.
             left. exists ty, (f_name f), args, sub, t, f, (fst p). split; [reflexivity|]. split; [now exists set, al, ds|]. split; [exact TE|]. split; [exact FI|].
             split; [reflexivity|]. split; [now apply in_map|exact N].
          -- apply in_flat_map in K. destruct K as (d' & D' & K). eapply DUE; [|exact K]. now apply (USED _ I).
        * apply in_flat_map in K. destruct K as (d' & D' & K). eapply DUE; [|exact K]. now apply (USED _ I).
        * apply in_flat_map in K. destruct K as (d' & D' & K). eapply DUE; [|exact K]. now apply (USED _ I).
    - intros s c. now split.
    - intros s d ty. now destruct d.
    - intros s y ty. now destruct y.
    - intros s ty set y O Y J. assert (I : item doc y) by (apply (item_iff _ WF _ T); now exists ty, set).
      rewrite ka_pre in J. destruct y as [al n args ds sub|n ds|tc ds sub]; cbn [loc].
      + apply in_app_iff in J. apply in_app_iff. destruct J as [J|J]; [left|right; eapply DIR; [now apply (USED _ I)|exact J]].
        apply in_flat_map in J. destruct J as (p & P & J). apply in_flat_map. exists p. split; [exact P|].
        destruct (KF ty n args sub) as (f & SE); [now exists set, al, ds|intros Z; rewrite Z in P; destruct P|].
        apply (found_ok _ WF) in SE. unfold found in SE. unfold of_field in J |- *. destruct (typed sch ty) as [t|]; [|discriminate]. now rewrite SE in J |- *.
      + eapply DIR; [now apply (USED _ I)|exact J].
      + eapply DIR; [now apply (USED _ I)|exact J].
    - intros s ty d D J. destruct d as [n' tc ds' set|k n' ds' vs set]; cbn [head] in J; rewrite out_cons in J; apply in_app_iff in J; (destruct J as [[]|J]); rewrite ?ka_op, ?ka_frag in J; cbn [fst] in J.
      + eapply DIR; [now apply (USEDD _ D)|exact J].
      + rewrite out_app in J. apply in_app_iff in J. destruct J as [J|J]; [eapply DIR; [now apply (USEDD _ D)|exact J]|].
        rewrite (mute_run (ka sch)) in J; [destruct J|]. intros s' x I. apply variables_valued in I. rewrite ka_skip; [reflexivity|]. destruct I as [I|(v & _ & ->)]; [now left|right; now exists v].
  Qed.
End State.
