(* What visitors report, from the places of the calls. *)
From Coq Require Import String List Bool Arith Lia.
From Verif Require Import Ast ConsumerModel IntroModel CondModel NormModel NormProofs WalkModel LocalModel LocalSpec WalkProofs LocalBase.
Import ListNotations.
Local Open Scope string_scope.
Local Open Scope list_scope.

Definition fin {E S} (step : S -> call -> S * list E) (s : S) (l : list call) : S := fst (run step s l).
Definition out {E S} (step : S -> call -> S * list E) (s : S) (l : list call) : list E := snd (run step s l).
Lemma fin_cons {E S} (step : S -> call -> S * list E) s x l : fin step s (x :: l) = fin step (fst (step s x)) l.
Proof. unfold fin. cbn [run]. destruct (step s x) as [s1 e]. cbn. now destruct (run step s1 l). Qed.
Lemma out_cons {E S} (step : S -> call -> S * list E) s x l : out step s (x :: l) = snd (step s x) ++ out step (fst (step s x)) l.
Proof. unfold out. cbn [run]. destruct (step s x) as [s1 e]. cbn. now destruct (run step s1 l). Qed.
Lemma fin_app {E S} (step : S -> call -> S * list E) a : forall s b, fin step s (a ++ b) = fin step (fin step s a) b.
Proof. induction a as [|x a IH]; intros s b; [reflexivity|]. cbn [app]. now rewrite !fin_cons, IH. Qed.
Lemma out_app {E S} (step : S -> call -> S * list E) a : forall s b, out step s (a ++ b) = out step s a ++ out step (fin step s a) b.
Proof. induction a as [|x a IH]; intros s b; [reflexivity|]. cbn [app]. rewrite !out_cons, fin_cons, IH. now rewrite app_assoc. Qed.
Lemma out_one {E S} (step : S -> call -> S * list E) s x : out step s [x] = snd (step s x).
Proof. rewrite out_cons. cbn. now rewrite app_nil_r. Qed.

Lemma stateless_in : forall {E} (f : call -> list E) l e, In e (errors_of (stateless f) l) <-> exists x, In x l /\ In e (f x).
Proof.
  intros E f l e. unfold errors_of. change (In e (out (fun _ x => (tt, f x)) tt l) <-> exists x, In x l /\ In e (f x)).
  induction l as [|x l IH]; [split; [intros []|intros (x & [] & _)]|].
  rewrite out_cons. cbn [fst snd]. rewrite in_app_iff, IH. split.
  - intros [K|(y & I & K)]; [exists x; split; [now left|exact K]|exists y; split; [now right|exact K]].
  - intros (y & [->|I] & K); [now left|right; now exists y].
Qed.

Section Events.
  Variable sch : list definition.
  Variable doc : list qdef.
  Hypothesis WF : well_formed sch.
  Variable l : list call.
  Hypothesis W : walk sch doc = Some l.

  Lemma starts : forall d, In d doc -> start_type sch d <> None.
  Proof. exact (proj2 (walk_parts _ _ _ W)). Qed.
  Definition enter (ty : option tnode) (y : nsel) : call :=
    match y with
    | NField al n args ds sub => (in_field sch ty n, EnterField al n args ds sub)
    | NSpread n ds => (at_type sch ty, EnterSpread n ds)
    | NInline tc ds sub => (in_inline sch ty tc, EnterInline tc ds sub)
    end.
  Definition leave (ty : option tnode) (y : nsel) : call :=
    match y with
    | NField al n args ds sub => (in_field sch ty n, LeaveField)
    | NSpread n ds => (at_type sch ty, LeaveSpread)
    | NInline tc ds sub => (in_inline sch ty tc, LeaveInline)
    end.
  Definition pre (ty : option tnode) (y : nsel) : list call :=
    enter ty y :: match y with
                  | NField al n args ds sub => walk_arguments sch (in_field sch ty n) (option_map f_args (found sch ty n)) args ++ walk_directives sch (in_field sch ty n) ds
                  | NSpread n ds => walk_directives sch (at_type sch ty) ds
                  | NInline tc ds sub => walk_directives sch (in_inline sch ty tc) ds
                  end.
  Definition below (ty : option tnode) (y : nsel) : list call :=
    match y with
    | NField al n args ds sub => walk_sub sch (sub_type sch ty n) sub
    | NSpread n ds => []
    | NInline tc ds sub => walk_sub sch (cond_type ty tc) sub
    end.
  Lemma own_pre : forall ty y, own sch ty y = pre ty y ++ [leave ty y].
  Proof. intros ty [al n args ds sub|n ds|tc ds sub]; cbn [own pre enter leave app]; [now rewrite <- !app_assoc|reflexivity|reflexivity]. Qed.
  Lemma walk_pre : forall ty y, walk_selection sch (at_type sch ty) y = pre ty y ++ below ty y ++ [leave ty y].
  Proof.
    intros ty [al n args ds sub|n ds|tc ds sub]; cbn [pre enter leave below app].
    - rewrite walk_field. now rewrite <- !app_assoc.
    - reflexivity.
    - now rewrite walk_inline.
  Qed.
  Lemma pre_high : forall ty y x, directing (snd x) = false -> (In x (pre ty y) <-> x = enter ty y).
  Proof.
    intros ty y x H. unfold pre. cbn [In]. split; [|intros ->; now left]. intros [K|K]; [easy|]. exfalso. destruct y.
    - apply in_app_iff in K. destruct K as [K|K]; [|apply directives_directing in K; congruence].
      apply arguments_argued in K. destruct (snd x); discriminate.
    - apply directives_directing in K. congruence.
    - apply directives_directing in K. congruence.
  Qed.
  Definition is_enter (e : event) : bool := match e with EnterField _ _ _ _ _ | EnterSpread _ _ | EnterInline _ _ _ => true | _ => false end.
  Lemma entered : forall c e, is_enter e = true ->
    (In (c, e) l <-> exists ty set y, occurs sch doc ty set /\ In y set /\ (c, e) = enter ty y).
  Proof.
    intros c e H. rewrite (walk_in _ _ _ W). unfold placed. split.
    - intros [K|[K|(d & ty & D & S & [K|[K|K]])]].
      + injection K as _ ->. discriminate H.
      + injection K as _ ->. discriminate H.
      + exfalso. destruct d as [n tc ds set|k n ds vs set]; cbn [head In] in K.
        * destruct K as [K|K]; [injection K as _ <-; discriminate H|]. apply directives_directing in K. cbn in K. now destruct e.
        * destruct K as [K|K]; [injection K as _ <-; discriminate H|]. apply in_app_iff in K. destruct K as [K|K].
          -- apply directives_directing in K. cbn in K. now destruct e.
          -- apply variables_valued in K. destruct K as [K|(v & _ & K)]; [cbn in K; now destruct e|injection K as _ ->; discriminate H].
      + exfalso. destruct d; injection K as _ ->; discriminate H.
      + destruct K as (ty' & set' & y & N & Y & O). exists ty', set', y. split; [apply (occurs_iff _ WF _ starts); now exists d, ty|]. split; [exact Y|].
        rewrite own_pre in O. apply in_app_iff in O. destruct O as [O|[O|[]]].
        * apply pre_high in O; [exact O|]. now destruct e.
        * exfalso. destruct y; injection O as _ <-; discriminate H.
    - intros (ty & set & y & O & Y & K). apply (occurs_iff _ WF _ starts) in O. destruct O as (d & ty0 & D & S & N).
      right; right. exists d, ty0. split; [exact D|]. split; [exact S|]. right; right. exists ty, set, y. split; [exact N|]. split; [exact Y|].
      rewrite own_pre, K. now left.
  Qed.
  Lemma ev_field : forall c al n args ds sub, In (c, EnterField al n args ds sub) l <->
    exists ty set, occurs sch doc ty set /\ In (NField al n args ds sub) set /\ c = in_field sch ty n.
  Proof.
    intros. rewrite entered by reflexivity. split.
    - intros (ty & set & y & O & Y & K). destruct y; try discriminate K. injection K as -> -> -> -> -> ->. exists ty, set. auto.
    - intros (ty & set & O & Y & ->). exists ty, set, (NField al n args ds sub). auto.
  Qed.
  Lemma ev_spread : forall c n ds, In (c, EnterSpread n ds) l <->
    exists ty set, occurs sch doc ty set /\ In (NSpread n ds) set /\ c = at_type sch ty.
  Proof.
    intros. rewrite entered by reflexivity. split.
    - intros (ty & set & y & O & Y & K). destruct y; try discriminate K. injection K as -> -> ->. exists ty, set. auto.
    - intros (ty & set & O & Y & ->). exists ty, set, (NSpread n ds). auto.
  Qed.
  Lemma ev_inline : forall c tc ds sub, In (c, EnterInline tc ds sub) l <->
    exists ty set, occurs sch doc ty set /\ In (NInline tc ds sub) set /\ c = in_inline sch ty tc.
  Proof.
    intros. rewrite entered by reflexivity. split.
    - intros (ty & set & y & O & Y & K). destruct y; try discriminate K. injection K as -> -> -> ->. exists ty, set. auto.
    - intros (ty & set & O & Y & ->). exists ty, set, (NInline tc ds sub). auto.
  Qed.
  Lemma ev_op : forall k n ds vs set, (exists c, In (c, EnterOp k n ds vs set) l) <-> In (QOp k n ds vs set) doc.
  Proof.
    intros k n ds vs set. split.
    - intros (c & K). apply (walk_in _ _ _ W) in K.
      destruct K as [K|[K|(d & ty & D & S & [K|[K|K]])]]; try (injection K as _ K; discriminate K).
      + destruct d as [n' tc ds' set'|k' n' ds' vs' set']; cbn [head In] in K.
        * destruct K as [K|K]; [discriminate K|]. now apply directives_directing in K.
        * destruct K as [K|K]; [now injection K as _ <- <- <- <- <-|]. apply in_app_iff in K. destruct K as [K|K].
          -- now apply directives_directing in K.
          -- apply variables_valued in K. destruct K as [K|(v & _ & K)]; discriminate K.
      + destruct d; discriminate K.
      + exfalso. destruct K as (ty' & set' & y & N & Y & O). rewrite own_pre in O. apply in_app_iff in O. destruct O as [O|[O|[]]].
        * apply pre_high in O; [destruct y; discriminate O|reflexivity].
        * destruct y; discriminate O.
    - intros I. destruct (start_type sch (QOp k n ds vs set)) as [ty|] eqn:S; [|now destruct (starts _ I)].
      exists (def_ctx ty). apply (walk_in _ _ _ W). right; right. exists (QOp k n ds vs set), ty. split; [exact I|]. split; [exact S|]. left. now left.
  Qed.
  Lemma ev_frag : forall n tc ds set, (exists c, In (c, EnterFrag n tc ds set) l) <-> In (QFrag n tc ds set) doc.
  Proof.
    intros n tc ds set. split.
    - intros (c & K). apply (walk_in _ _ _ W) in K.
      destruct K as [K|[K|(d & ty & D & S & [K|[K|K]])]]; try (injection K as _ K; discriminate K).
      + destruct d as [n' tc' ds' set'|k' n' ds' vs' set']; cbn [head In] in K.
        * destruct K as [K|K]; [now injection K as _ <- <- <- <-|]. now apply directives_directing in K.
        * destruct K as [K|K]; [discriminate K|]. apply in_app_iff in K. destruct K as [K|K].
          -- now apply directives_directing in K.
          -- apply variables_valued in K. destruct K as [K|(v & _ & K)]; discriminate K.
      + destruct d; discriminate K.
      + exfalso. destruct K as (ty' & set' & y & N & Y & O). rewrite own_pre in O. apply in_app_iff in O. destruct O as [O|[O|[]]].
        * apply pre_high in O; [destruct y; discriminate O|reflexivity].
        * destruct y; discriminate O.
    - intros I. exists (def_ctx (Some (TNamed tc))). apply (walk_in _ _ _ W). right; right. exists (QFrag n tc ds set), (Some (TNamed tc)).
      split; [exact I|]. split; [reflexivity|]. left. now left.
  Qed.
  Lemma ev_variable : forall v, (exists c, In (c, EnterVariable v) l) <-> variable_of doc v.
  Proof.
    intros v. split.
    - intros (c & K). apply (walk_in _ _ _ W) in K.
      destruct K as [K|[K|(d & ty & D & S & [K|[K|K]])]]; try (injection K as _ K; discriminate K).
      + destruct d as [n' tc' ds' set'|k' n' ds' vs' set']; cbn [head In] in K.
        * destruct K as [K|K]; [discriminate K|]. now apply directives_directing in K.
        * destruct K as [K|K]; [discriminate K|]. apply in_app_iff in K. destruct K as [K|K].
          -- now apply directives_directing in K.
          -- apply variables_valued in K. destruct K as [K|(v' & I & K)]; [discriminate K|]. injection K as _ <-.
             exists k', n', ds', vs', set'. now split.
      + destruct d; discriminate K.
      + exfalso. destruct K as (ty' & set' & y & N & Y & O). rewrite own_pre in O. apply in_app_iff in O. destruct O as [O|[O|[]]].
        * apply pre_high in O; [destruct y; discriminate O|reflexivity].
        * destruct y; discriminate O.
    - intros (k & n & ds & vs & set & I & V). destruct (start_type sch (QOp k n ds vs set)) as [ty|] eqn:S; [|now destruct (starts _ I)].
      exists (with_input (def_ctx ty) (Some (vd_type v)) false). apply (walk_in _ _ _ W). right; right. exists (QOp k n ds vs set), ty. split; [exact I|]. split; [exact S|].
      left. right. apply in_app_iff. right. apply in_flat_map. exists v. split; [exact V|now left].
  Qed.

  (* the directives of a place *)
  Definition dirs_of (y : nsel) : list directive := match y with NField _ _ _ ds _ => ds | NSpread _ ds => ds | NInline _ ds _ => ds end.
  Definition def_dirs (d : qdef) : list directive := match d with QFrag _ _ ds _ => ds | QOp _ _ ds _ _ => ds end.
  Definition loc_of (y : nsel) : string := match y with NField _ _ _ _ _ => "FIELD" | NSpread _ _ => "FRAGMENT_SPREAD" | NInline _ _ _ => "INLINE_FRAGMENT" end.
  Definition def_loc (d : qdef) : string := match d with QFrag _ _ _ _ => "FRAGMENT_DEFINITION" | QOp k _ _ _ _ => location k end.
  Lemma directed_iff : forall loc ds, directed doc loc ds <->
    (exists d, In d doc /\ loc = def_loc d /\ ds = def_dirs d) \/ (exists y, item doc y /\ loc = loc_of y /\ ds = dirs_of y).
  Proof.
    intros loc ds. split.
    - intros K. destruct K as [k n ds vs set I|n tc ds set I|al n args ds sub I|n ds I|tc ds sub I].
      + left. eexists. split; [exact I|]. now split.
      + left. eexists. split; [exact I|]. now split.
      + right. eexists. split; [exact I|]. now split.
      + right. eexists. split; [exact I|]. now split.
      + right. eexists. split; [exact I|]. now split.
    - intros [(d & D & -> & ->)|(y & Y & -> & ->)].
      + destruct d; [eapply directed_fragment|eapply directed_operation]; exact D.
      + destruct y; [eapply directed_field|eapply directed_spread|eapply directed_inline]; exact Y.
  Qed.
  Lemma directive_event : forall c ds d, In (c, EnterDirective d) (walk_directives sch c ds) <-> In d ds.
  Proof.
    intros c ds d. split.
    - intros K. apply in_flat_map in K. destruct K as (d' & I & [K|K]); [now injection K as <-|].
      apply in_app_iff in K. destruct K as [K|[K|[]]]; [|discriminate K]. apply arguments_argued in K. discriminate K.
    - intros I. apply in_flat_map. exists d. split; [exact I|now left].
  Qed.
  Lemma directive_ctx : forall c c' ds d, In (c', EnterDirective d) (walk_directives sch c ds) -> c' = c.
  Proof.
    intros c c' ds d K. apply in_flat_map in K. destruct K as (d' & I & [K|K]); [now injection K as <- _|].
    apply in_app_iff in K. destruct K as [K|[K|[]]]; [|discriminate K]. apply arguments_argued in K. discriminate K.
  Qed.
  Lemma own_directive : forall ty y d, (exists c, In (c, EnterDirective d) (own sch ty y)) <-> In d (dirs_of y).
  Proof.
    intros ty y d. rewrite own_pre. unfold pre. split.
    - intros (c & K). apply in_app_iff in K. destruct K as [[K|K]|[K|[]]].
      + destruct y; discriminate K.
      + destruct y.
        * apply in_app_iff in K. destruct K as [K|K]; [apply arguments_argued in K; discriminate K|].
          rewrite (directive_ctx _ _ _ _ K) in K. now apply directive_event in K.
        * rewrite (directive_ctx _ _ _ _ K) in K. now apply directive_event in K.
        * rewrite (directive_ctx _ _ _ _ K) in K. now apply directive_event in K.
      + destruct y; discriminate K.
    - intros I. destruct y as [al n args ds sub|n ds|tc ds sub].
      + exists (in_field sch ty n). apply in_app_iff. left. right. apply in_app_iff. right. now apply directive_event.
      + exists (at_type sch ty). apply in_app_iff. left. right. now apply directive_event.
      + exists (in_inline sch ty tc). apply in_app_iff. left. right. now apply directive_event.
  Qed.
  Lemma head_directive : forall ty d0 d, (exists c, In (c, EnterDirective d) (head sch d0 ty)) <-> In d (def_dirs d0).
  Proof.
    intros ty d0 d. split.
    - intros (c & K). destruct d0 as [n tc ds set|k n ds vs set]; cbn [head In] in K; (destruct K as [K|K]; [discriminate K|]).
      + rewrite (directive_ctx _ _ _ _ K) in K. now apply directive_event in K.
      + apply in_app_iff in K. destruct K as [K|K].
        * rewrite (directive_ctx _ _ _ _ K) in K. now apply directive_event in K.
        * apply variables_valued in K. destruct K as [K|(v & _ & K)]; discriminate K.
    - intros I. exists (def_ctx ty). destruct d0 as [n tc ds set|k n ds vs set]; cbn [head In].
      + right. now apply directive_event.
      + right. apply in_app_iff. left. now apply directive_event.
  Qed.
  Lemma ev_directive : forall d, (exists c, In (c, EnterDirective d) l) <-> directive_used doc d.
  Proof.
    intros d. unfold directive_used. split.
    - intros (c & K). apply (walk_in _ _ _ W) in K.
      destruct K as [K|[K|(d0 & ty & D & S & [K|[K|K]])]]; try (injection K as _ K; discriminate K).
      + exists (def_loc d0), (def_dirs d0). split; [apply directed_iff; left; now exists d0|]. apply (head_directive ty). now exists c.
      + destruct d0; discriminate K.
      + destruct K as (ty' & set' & y & N & Y & O). exists (loc_of y), (dirs_of y). split; [|apply (own_directive ty'); now exists c].
        apply directed_iff. right. exists y. split; [|now split]. apply (item_iff _ WF _ starts). exists ty', set'. split; [|exact Y].
        apply (occurs_iff _ WF _ starts). now exists d0, ty.
    - intros (loc & ds & K & I). apply directed_iff in K. destruct K as [(d0 & D & -> & ->)|(y & Y & -> & ->)].
      + destruct (start_type sch d0) as [ty|] eqn:S; [|now destruct (starts _ D)].
        apply (head_directive ty) in I. destruct I as (c & I). exists c. apply (walk_in _ _ _ W). right; right. exists d0, ty. auto.
      + apply (item_iff _ WF _ starts) in Y. destruct Y as (ty & set & O & Y). apply (occurs_iff _ WF _ starts) in O.
        destruct O as (d0 & ty0 & D & S & N). apply (own_directive ty) in I. destruct I as (c & I). exists c. apply (walk_in _ _ _ W). right; right.
        exists d0, ty0. split; [exact D|]. split; [exact S|]. right; right. exists ty, set, y. auto.
  Qed.

  (* objects *)
  Lemma arguments_objects : forall c defs args o, (exists c', In (c', EnterObject o) (walk_arguments sch c defs args)) <->
    exists k v, In (k, v) args /\ part v (GObj o).
  Proof.
    intros c defs args o. split.
    - intros (c' & K). apply in_flat_map in K. destruct K as ([k v] & I & [K|K]); [discriminate K|]. exists k, v. split; [exact I|].
      eapply value_objects. eexists. exact K.
    - intros (k & v & I & P).
      pose proof (proj2 (value_objects sch v (with_input c (option_map iv_type (match defs with Some l => input_by_name l k | None => None end))
        (match (match defs with Some l => input_by_name l k | None => None end) with Some f => match iv_default f with Some _ => true | None => false end | None => false end)) o) P) as (c' & K).
      exists c'. apply in_flat_map. exists (k, v). split; [exact I|]. right. exact K.
  Qed.
  Lemma directives_objects : forall c ds o, (exists c', In (c', EnterObject o) (walk_directives sch c ds)) <->
    exists d k v, In d ds /\ In (k, v) (d_args d) /\ part v (GObj o).
  Proof.
    intros c ds o. split.
    - intros (c' & K). apply in_flat_map in K. destruct K as (d & I & [K|K]); [discriminate K|].
      apply in_app_iff in K. destruct K as [K|[K|[]]]; [|discriminate K]. exists d.
      destruct (proj1 (arguments_objects _ _ _ _) (ex_intro _ c' K)) as (k & v & A & P). exists k, v. auto.
    - intros (d & k & v & I & A & P).
      destruct (proj2 (arguments_objects c (option_map dd_args (directive_by_name sch (d_name d))) (d_args d) o)) as (c' & K); [now exists k, v|].
      exists c'. apply in_flat_map. exists d. split; [exact I|]. right. apply in_app_iff. now left.
  Qed.
  Lemma ev_object : forall o, (exists c, In (c, EnterObject o) l) <-> value_of doc (GObj o).
  Proof.
    intros o. split.
    - intros (c & K). apply (walk_in _ _ _ W) in K.
      destruct K as [K|[K|(d0 & ty & D & S & [K|[K|K]])]]; try (injection K as _ K; discriminate K).
      + assert (U : forall d, In d (def_dirs d0) -> directive_used doc d).
        { intros d I. exists (def_loc d0), (def_dirs d0). split; [|exact I]. apply directed_iff. left. now exists d0. }
        destruct d0 as [n tc ds set|k n ds vs set]; cbn [head In] in K; (destruct K as [K|K]; [discriminate K|]).
        * destruct (proj1 (directives_objects _ _ _) (ex_intro _ c K)) as (d & k & v & I & A & P).
          eapply value_directive; [apply U; exact I|exact A|exact P].
        * apply in_app_iff in K. destruct K as [K|K].
          -- destruct (proj1 (directives_objects _ _ _) (ex_intro _ c K)) as (d & k' & v & I & A & P).
             eapply value_directive; [apply U; exact I|exact A|exact P].
          -- apply in_flat_map in K. destruct K as (v & I & [K|K]); [discriminate K|].
             destruct (vd_default v) as [x|] eqn:V; [|destruct K]. eapply value_default; [|exact V|].
             ++ exists k, n, ds, vs, set. now split.
             ++ eapply value_objects. eexists. exact K.
      + destruct d0; discriminate K.
      + destruct K as (ty' & set' & y & N & Y & O).
        assert (I : item doc y).
        { apply (item_iff _ WF _ starts). exists ty', set'. split; [|exact Y]. apply (occurs_iff _ WF _ starts). now exists d0, ty. }
        assert (U : forall d, In d (dirs_of y) -> directive_used doc d).
        { intros d J. exists (loc_of y), (dirs_of y). split; [|exact J]. apply directed_iff. right. now exists y. }
        rewrite own_pre in O. apply in_app_iff in O. destruct O as [[O|O]|[O|[]]]; [destruct y; discriminate O| |destruct y; discriminate O].
        destruct y as [al n args ds sub|n ds|tc ds sub].
        * apply in_app_iff in O. destruct O as [O|O].
          -- destruct (proj1 (arguments_objects _ _ _ _) (ex_intro _ c O)) as (k & v & A & P). eapply value_argument; eassumption.
          -- destruct (proj1 (directives_objects _ _ _) (ex_intro _ c O)) as (d & k' & v & J & A & P).
             eapply value_directive; [apply U; exact J|exact A|exact P].
        * destruct (proj1 (directives_objects _ _ _) (ex_intro _ c O)) as (d & k' & v & J & A & P).
          eapply value_directive; [apply U; exact J|exact A|exact P].
        * destruct (proj1 (directives_objects _ _ _) (ex_intro _ c O)) as (d & k' & v & J & A & P).
          eapply value_directive; [apply U; exact J|exact A|exact P].
    - assert (PLACE : forall y ty set d0 ty0 c x, In d0 doc -> start_type sch d0 = Some ty0 -> inner sch ty0 (set_of d0) ty set -> In y set ->
        In (c, x) (own sch ty y) -> exists c, In (c, x) l).
      { intros y ty set d0 ty0 c x D S N Y O. exists c. apply (walk_in _ _ _ W). right; right. exists d0, ty0. split; [exact D|]. split; [exact S|].
        right; right. exists ty, set, y. auto. }
      intros K. inversion K as [al n args ds sub k v w I A P E|d k v w U A P E|x v w I A P E]; subst w.
      + apply (item_iff _ WF _ starts) in I. destruct I as (ty & set & O & Y). apply (occurs_iff _ WF _ starts) in O.
        destruct O as (d0 & ty0 & D & S & N).
        destruct (proj2 (arguments_objects (in_field sch ty n) (option_map f_args (found sch ty n)) args o)) as (c & J); [now exists k, v|].
        eapply (PLACE _ ty set d0 ty0 c); try eassumption. rewrite own_pre. apply in_app_iff. left. right. apply in_app_iff. now left.
      + destruct U as (loc & ds & U & I). apply directed_iff in U. destruct U as [(d0 & D & -> & ->)|(y & Y & -> & ->)].
        * destruct (start_type sch d0) as [ty|] eqn:S; [|now destruct (starts _ D)].
          destruct (proj2 (directives_objects (def_ctx ty) (def_dirs d0) o)) as (c & J); [now exists d, k, v|].
          exists c. apply (walk_in _ _ _ W). right; right. exists d0, ty. split; [exact D|]. split; [exact S|]. left.
          destruct d0; cbn [head In def_dirs] in *; right; [exact J|apply in_app_iff; now left].
        * apply (item_iff _ WF _ starts) in Y. destruct Y as (ty & set & O & Y). apply (occurs_iff _ WF _ starts) in O.
          destruct O as (d0 & ty0 & D & S & N). destruct y as [al n args ds sub|n ds|tc ds sub]; cbn [dirs_of] in I.
          -- destruct (proj2 (directives_objects (in_field sch ty n) ds o)) as (c & J); [now exists d, k, v|].
             eapply (PLACE _ ty set d0 ty0 c); try eassumption. rewrite own_pre. apply in_app_iff. left. right. apply in_app_iff. now right.
          -- destruct (proj2 (directives_objects (at_type sch ty) ds o)) as (c & J); [now exists d, k, v|].
             eapply (PLACE _ ty set d0 ty0 c); try eassumption. rewrite own_pre. apply in_app_iff. left. now right.
          -- destruct (proj2 (directives_objects (in_inline sch ty tc) ds o)) as (c & J); [now exists d, k, v|].
             eapply (PLACE _ ty set d0 ty0 c); try eassumption. rewrite own_pre. apply in_app_iff. left. now right.
      + destruct I as (k & n & ds & vs & set & I & V). destruct (start_type sch (QOp k n ds vs set)) as [ty|] eqn:S; [|now destruct (starts _ I)].
        destruct (proj2 (value_objects sch v (with_input (def_ctx ty) (Some (vd_type x)) false) o) P) as (c & J).
        exists c. apply (walk_in _ _ _ W). right; right. exists (QOp k n ds vs set), ty. split; [exact I|]. split; [exact S|]. left. right.
        apply in_app_iff. right. apply in_flat_map. exists x. split; [exact V|]. right. now rewrite A.
  Qed.

  (* Visitors with state: what they report at a place does not depend on what came before. *)
  Section State.
    Variables (E S : Type).
    Variable step : S -> call -> S * list E.
    Variable loc : option tnode -> nsel -> list E.
    Variable locd : option tnode -> qdef -> list E.
    Hypothesis quiet : forall s c, snd (step s (c, EnterDocument)) = [] /\ snd (step s (c, LeaveDocument)) = [].
    Hypothesis quiet_foot : forall s d ty, snd (step s (foot d ty)) = [].
    Hypothesis quiet_leave : forall s y ty, snd (step s (leave ty y)) = [].

    Section More.
      Variable e : E.
      Hypothesis more : forall s ty y, In e (loc ty y) -> In e (out step s (pre ty y)).
      Hypothesis mored : forall s ty d, In e (locd ty d) -> In e (out step s (head sch d ty)).
      Lemma sub_more : forall set ty ty' set' y, inner sch ty set ty' set' -> In y set' -> In e (loc ty' y) ->
        forall s, In e (out step s (walk_sub sch ty set)).
      Proof.
        intros set ty ty' set' y N Y L.
        assert (ONE : forall x set0 ty0, In x set0 -> (forall s, In e (out step s (walk_selection sch (at_type sch ty0) x))) -> forall s, In e (out step s (walk_sub sch ty0 set0))).
        { intros x set0 ty0. induction set0 as [|z set0 IH]; intros I K s; [destruct I|]. unfold walk_sub. cbn [flat_map]. rewrite out_app. apply in_app_iff.
          destruct I as [->|I]; [left; apply K|right; now apply IH]. }
        induction N as [ty set|ty set al n args ds sub ty' set' I K IH|ty set tc ds sub ty' set' I K IH]; intros s.
        - apply (ONE y); [exact Y|]. intros s'. rewrite walk_pre, out_app. apply in_app_iff. left. now apply more.
        - apply (ONE _ _ _ I). intros s'. rewrite walk_pre, !out_app, !in_app_iff. right; left. cbn [below]. now apply IH.
        - apply (ONE _ _ _ I). intros s'. rewrite walk_pre, !out_app, !in_app_iff. right; left. cbn [below]. now apply IH.
      Qed.
      Lemma all_more : forall s,
        (exists ty d, In d doc /\ start_type sch d = Some ty /\ In e (locd ty d)) \/
        (exists ty set y, occurs sch doc ty set /\ In y set /\ In e (loc ty y)) -> In e (out step s l).
      Proof.
        intros s K. destruct (walk_parts _ _ _ W) as [EQ T]. rewrite EQ, out_cons. apply in_app_iff. right. rewrite out_app. apply in_app_iff. left.
        assert (ONE : forall d, In d doc -> (forall s, In e (out step s (calls sch d))) -> forall s, In e (out step s (flat_map (calls sch) doc))).
        { clear - step. intros d. generalize doc as rest. induction rest as [|z rest IH]; intros I K s; [destruct I|]. cbn [flat_map]. rewrite out_app. apply in_app_iff.
          destruct I as [->|I]; [left; apply K|right; now apply IH]. }
        destruct K as [(ty & d & D & ST & L)|(ty & set & y & O & Y & L)].
        - apply (ONE d D). intros s'. rewrite (calls_eq _ _ _ ST), out_app. apply in_app_iff. left. now apply mored.
        - apply (occurs_iff _ WF _ starts) in O. destruct O as (d & ty0 & D & ST & N). apply (ONE d D). intros s'.
          rewrite (calls_eq _ _ _ ST), !out_app, !in_app_iff. right; left. eapply sub_more; eassumption.
      Qed.
    End More.

    Section Less.
      Variable e : E.
      Hypothesis less : forall s ty set y, occurs sch doc ty set -> In y set -> In e (out step s (pre ty y)) -> In e (loc ty y).
      Hypothesis lessd : forall s ty d, In d doc -> In e (out step s (head sch d ty)) -> In e (locd ty d).
      Lemma sub_less : forall x ty set, occurs sch doc ty set -> In x set ->
        forall s, In e (out step s (walk_selection sch (at_type sch ty) x)) ->
        exists ty' set' y, occurs sch doc ty' set' /\ In y set' /\ In e (loc ty' y).
      Proof.
        assert (SUB : forall sub, Forall (fun x => forall ty set, occurs sch doc ty set -> In x set ->
            forall s, In e (out step s (walk_selection sch (at_type sch ty) x)) ->
            exists ty' set' y, occurs sch doc ty' set' /\ In y set' /\ In e (loc ty' y)) sub ->
          forall ty, occurs sch doc ty sub -> forall s, In e (out step s (walk_sub sch ty sub)) ->
          exists ty' set' y, occurs sch doc ty' set' /\ In y set' /\ In e (loc ty' y)).
        { intros sub F ty O. rewrite Forall_forall in F. unfold walk_sub. assert (G : incl sub sub) by apply incl_refl. revert G.
          generalize sub at 1 3 as rest. induction rest as [|z rest IH]; intros G s K; [destruct K|]. cbn [flat_map] in K. rewrite out_app in K. apply in_app_iff in K.
          destruct K as [K|K].
          - eapply F; [|exact O| |exact K]; apply G; now left.
          - eapply IH; [|exact K]. intros a A. apply G. now right. }
        induction x as [al n args ds sub IH|n ds|tc ds sub IH] using nsel_ind'; intros ty set O X s K;
          rewrite walk_pre, !out_app, !in_app_iff in K; (destruct K as [K|[K|K]];
            [exists ty, set; eexists; (split; [exact O|]; split; [exact X|]); eapply less; eassumption| |rewrite out_one, quiet_leave in K; destruct K]).
        - cbn [below] in K. eapply SUB; [exact IH| |exact K]. eapply on_field; [exact O|exact X|]. now apply sub_type_ok.
        - destruct K.
        - cbn [below] in K. eapply SUB; [exact IH| |exact K]. destruct tc; [eapply on_condition|eapply on_same]; eassumption.
      Qed.
      Lemma all_less : forall s, In e (out step s l) ->
        (exists ty d, In d doc /\ start_type sch d = Some ty /\ In e (locd ty d)) \/
        (exists ty set y, occurs sch doc ty set /\ In y set /\ In e (loc ty y)).
      Proof.
        intros s K. destruct (walk_parts _ _ _ W) as [EQ T]. rewrite EQ in K.
        rewrite out_cons in K. apply in_app_iff in K. destruct K as [K|K]; [rewrite (proj1 (quiet _ _)) in K; destruct K|].
        rewrite out_app in K. apply in_app_iff in K. destruct K as [K|K]; [|rewrite out_one, (proj2 (quiet _ _)) in K; destruct K].
        revert K. generalize (fst (step s (no_ctx, EnterDocument))) as s1.
        assert (G : incl doc doc) by apply incl_refl. revert G. generalize doc at 1 3 as rest.
        induction rest as [|d rest IH]; intros G s1 K; [destruct K|]. cbn [flat_map] in K. rewrite out_app in K. apply in_app_iff in K.
        destruct K as [K|K]; [|eapply IH; [intros a A; apply G; now right|exact K]].
        assert (D : In d doc) by (apply G; now left).
        destruct (start_type sch d) as [ty|] eqn:ST; [|now destruct (T _ D)].
        rewrite (calls_eq _ _ _ ST), !out_app, !in_app_iff in K. destruct K as [K|[K|K]].
        - left. exists ty, d. split; [exact D|]. split; [exact ST|]. eapply lessd; eassumption.
        - right. assert (O : occurs sch doc ty (set_of d)) by (apply (occurs_iff _ WF _ starts); exists d, ty; split; [exact D|]; split; [exact ST|constructor]).
          revert K. generalize (fin step s1 (head sch d ty)) as s2. unfold walk_sub.
          assert (H : incl (set_of d) (set_of d)) by apply incl_refl. revert H. generalize (set_of d) at 1 3 as set.
          induction set as [|z set IHs]; intros H s2 K; [destruct K|]. cbn [flat_map] in K. rewrite out_app in K. apply in_app_iff in K.
          destruct K as [K|K]; [|eapply IHs; [intros a A; apply H; now right|exact K]].
          eapply sub_less; [exact O| |exact K]. apply H. now left.
        - rewrite out_one, quiet_foot in K. destruct K.
      Qed.
    End Less.
  End State.
End Events.
