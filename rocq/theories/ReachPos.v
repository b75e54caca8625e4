(* The rules on unused fragments and on the positions of variables. *)
From Coq Require Import String List Bool Arith Lia.
From Verif Require CostMono.
From Verif Require Import StrUtil Ast ConsumerModel IntroModel CondModel NormModel NormProofs WalkModel LocalModel LocalSpec WalkProofs LocalBase LocalRun LocalProofs LocalState ReachModel ReachSpec ReachBase ReachCalls ReachVars.
Import ListNotations.
Local Open Scope string_scope.
Local Open Scope list_scope.

Lemma type_eqb_ok : forall a b, type_eqb a b = true <-> a = b.
Proof.
  induction a as [n|a IH|a IH]; destruct b as [m|b|b]; cbn; try (split; discriminate).
  - rewrite String.eqb_eq. split; congruence.
  - rewrite IH. split; congruence.
  - rewrite IH. split; congruence.
Qed.
Lemma compatible_refl : forall a, compatible a a.
Proof. induction a; now constructor. Qed.
Lemma nodup_vd : forall vs, NoDup (map vd_name vs) -> forall v w, In v vs -> In w vs -> vd_name v = vd_name w -> v = w.
Proof. intros vs ND v w V W E. exact (CostMono.nodup_map_inj vd_name vs v w ND V W E). Qed.
Section Sub.
  Variable sch : list definition.
  Definition input_base (t : tnode) : Prop := forall td, named sch (base t) td -> takes_input td.
  Lemma is_subtype_ok : forall u t, input_base t -> is_subtype sch u t = true <-> compatible u t.
  Proof.
    induction u as [n|u IH|u IH]; intros t IB.
    - cbn [is_subtype]. destruct t as [m|t|t].
      + destruct (type_eqb (TNamed n) (TNamed m)) eqn:E.
        * apply type_eqb_ok in E. rewrite E. split; [intros _; apply compatible_refl|reflexivity].
        * split.
          -- destruct (type_by_name sch n) as [st|]; [|discriminate]. destruct (type_by_name sch m) as [ut|] eqn:T; [|discriminate].
             apply type_by_name_in in T. apply IB in T. destruct T as [T|T]; destruct ut; cbn in T; try contradiction; intros K; cbn in K; discriminate K.
          -- intros C. inversion C; subst. now rewrite (proj2 (type_eqb_ok _ _) eq_refl) in E.
      + cbn. split; [discriminate|]. intros C. inversion C.
      + cbn. split; [discriminate|]. intros C. inversion C.
    - cbn [is_subtype]. destruct t as [m|t|t].
      + cbn. split; [discriminate|]. intros C. inversion C.
      + destruct (type_eqb (TList u) (TList t)) eqn:E.
        * apply type_eqb_ok in E. rewrite E. split; [intros _; apply compatible_refl|reflexivity].
        * rewrite (IH t IB). split; [now constructor|]. intros C. now inversion C.
      + cbn. split; [discriminate|]. intros C. inversion C.
    - cbn [is_subtype]. destruct t as [m|t|t].
      + cbn [type_eqb]. rewrite (IH _ IB). split; [intros C; apply compatible_drop; [exact C|discriminate]|]. intros C. now inversion C.
      + cbn [type_eqb]. rewrite (IH _ IB). split; [intros C; apply compatible_drop; [exact C|discriminate]|]. intros C. now inversion C.
      + destruct (type_eqb (TNonNull u) (TNonNull t)) eqn:E.
        * apply type_eqb_ok in E. rewrite E. split; [intros _; apply compatible_refl|reflexivity].
        * rewrite (IH t IB). split; [now constructor|]. intros C. inversion C as [|a b C'|a b C'|a b C' N]; subst; [exact C'|]. now destruct (N t).
  Qed.
  Lemma nonnull_nullable : forall u t, (forall c, t <> TNonNull c) -> (compatible (TNonNull u) t <-> compatible u t).
  Proof.
    intros u t N. split; [|intros C; now apply compatible_drop]. intros C. inversion C; subst; [|assumption]. now destruct (N b).
  Qed.
  Lemma nonnull_both : forall u t, (compatible (TNonNull u) (TNonNull t) <-> compatible u t).
  Proof.
    intros u t. split; [|intros C; now constructor]. intros C. inversion C as [|a b C'|a b C'|a b C' N]; subst; [exact C'|]. now destruct (N t).
  Qed.
  Lemma nullable_nonnull : forall u t, (forall c, u <> TNonNull c) -> ~ compatible u (TNonNull t).
  Proof. intros u t N C. inversion C; subst; eapply N; reflexivity. Qed.

  Definition seen_default (v : vardef) : bool := match vd_default v with Some GNull => false | Some _ => true | None => false end.
  Lemma seen_default_ok : forall v, seen_default v = true <-> good_default v.
  Proof.
    intros v. unfold seen_default, good_default. destruct (vd_default v) as [x|].
    - destruct x; (split; [intros; eexists; split; [reflexivity|discriminate]||discriminate|]); try reflexivity. intros (y & E & N). congruence.
    - split; [discriminate|]. intros (x & E & _). discriminate E.
  Qed.
  Definition seen_type (v : vardef) : tnode :=
    if is_nonnull (vd_type v) then vd_type v else if seen_default v then TNonNull (vd_type v) else vd_type v.
  Lemma seen_type_ok : forall v u, counts_as v u <-> u = seen_type v.
  Proof.
    intros v u. unfold counts_as, seen_type. pose proof (seen_default_ok v) as SD. destruct (vd_type v) as [n|t|t]; cbn [is_nonnull].
    - destruct (seen_default v).
      + split; [intros [[[[c C]|C] _]|(_ & _ & ->)]; [discriminate C|now destruct C; apply SD|reflexivity]|]. intros ->. right. split; [discriminate|]. split; [now apply SD|reflexivity].
      + split; [intros [[_ ->]|(_ & G & _)]; [reflexivity|apply SD in G; discriminate G]|]. intros ->. left. split; [right; intros G; apply SD in G; discriminate G|reflexivity].
    - destruct (seen_default v).
      + split; [intros [[[[c C]|C] _]|(_ & _ & ->)]; [discriminate C|now destruct C; apply SD|reflexivity]|]. intros ->. right. split; [discriminate|]. split; [now apply SD|reflexivity].
      + split; [intros [[_ ->]|(_ & G & _)]; [reflexivity|apply SD in G; discriminate G]|]. intros ->. left. split; [right; intros G; apply SD in G; discriminate G|reflexivity].
    - split; [intros [[_ ->]|(N & _)]; [reflexivity|now destruct (N t)]|]. intros ->. left. split; [left; now exists t|reflexivity].
  Qed.
  Definition seen_location (df : bool) (t : tnode) : tnode := match df, t with true, TNonNull t => t | _, _ => t end.
  Lemma plain_inner : forall t, plain_type (TNonNull t) -> forall c, t <> TNonNull c.
  Proof. intros t P c ->. exact P. Qed.
  Lemma allowed_iff : forall v t df, plain_type t -> (compatible (seen_type v) (seen_location df t) <-> allowed v t df).
  Proof.
    intros v t df P. unfold seen_type, seen_location, allowed. pose proof (seen_default_ok v) as SD.
    assert (NN : is_nonnull (vd_type v) = false -> forall c, vd_type v <> TNonNull c) by (intros E c C; rewrite C in E; discriminate E).
    destruct t as [m|t|t].
    - replace (match df with true | _ => TNamed m end) with (TNamed m) by now destruct df.
      destruct (is_nonnull (vd_type v)); [reflexivity|]. destruct (seen_default v); [|reflexivity]. apply nonnull_nullable. discriminate.
    - replace (match df with true | _ => TList t end) with (TList t) by now destruct df.
      destruct (is_nonnull (vd_type v)); [reflexivity|]. destruct (seen_default v); [|reflexivity]. apply nonnull_nullable. discriminate.
    - pose proof (plain_inner t P) as PN. destruct (vd_type v) as [n|u|u]; cbn [is_nonnull] in *.
      + destruct (seen_default v), df; rewrite ?nonnull_both, ?(nonnull_nullable _ _ PN).
        * split; [intros C; split; [now right|exact C]|tauto].
        * split; [intros C; split; [left; now apply SD|exact C]|tauto].
        * split; [intros C; split; [now right|exact C]|tauto].
        * split; [intros C; now apply nullable_nonnull in C|]. intros [[G|G] _]; [apply SD in G|]; discriminate G.
      + destruct (seen_default v), df; rewrite ?nonnull_both, ?(nonnull_nullable _ _ PN).
        * split; [intros C; split; [now right|exact C]|tauto].
        * split; [intros C; split; [left; now apply SD|exact C]|tauto].
        * split; [intros C; split; [now right|exact C]|tauto].
        * split; [intros C; now apply nullable_nonnull in C|]. intros [[G|G] _]; [apply SD in G|]; discriminate G.
      + destruct df; rewrite ?nonnull_both, ?(nonnull_nullable _ _ PN); reflexivity.
  Qed.
  Lemma input_location : forall df t, input_base t -> input_base (seen_location df t).
  Proof. intros [|] [n|t|t] H; exact H. Qed.
  Lemma bad_use_ok : forall vs x t df e, NoDup (map vd_name vs) -> plain_type t -> input_base t ->
    (In e (bad_use sch vs (x, t, df)) <-> exists v u, In v vs /\ vd_name v = x /\ counts_as v u /\ ~ allowed v t df /\ e = BadUse x u t).
  Proof.
    intros vs x t df e ND P IB. unfold bad_use.
    destruct (find (fun d => String.eqb (vd_name d) x) vs) as [v|] eqn:F.
    - destruct (find_some _ _ F) as [V N]. apply String.eqb_eq in N. fold (seen_default v). fold (seen_type v). fold (seen_location df t).
      pose proof (is_subtype_ok (seen_type v) (seen_location df t) (input_location df t IB)) as S. rewrite (allowed_iff v t df P) in S.
      destruct (is_subtype sch (seen_type v) (seen_location df t)).
      + split; [intros []|]. intros (w & u & I & E & _ & A & _). rewrite (nodup_vd vs ND w v I V) in A by congruence. destruct A. now apply S.
      + split.
        * intros [<-|[]]. exists v, (seen_type v). split; [exact V|]. split; [exact N|]. split; [now apply seen_type_ok|]. split; [|reflexivity].
          intros A. apply S in A. discriminate A.
        * intros (w & u & I & E & C & _ & ->). rewrite (nodup_vd vs ND w v I V) in C by congruence. apply seen_type_ok in C. subst u. now left.
    - split; [intros []|]. intros (v & u & I & E & _). pose proof (find_none _ _ F v I) as N. cbn in N. rewrite E, String.eqb_refl in N. discriminate N.
  Qed.
End Sub.

(* Where variables stand *)
Lemma sinsert_list : forall (m : list (scope * list string)) c n y v,
  In v (mlist scope_eqb (mput scope_eqb m c (sinsert n (mlist scope_eqb m c))) y) <-> In v (mlist scope_eqb m y) \/ (y = c /\ In v [n]).
Proof.
  intros m c n y v. unfold mlist at 1. rewrite (mget_put _ scope_eqb_ok). destruct (scope_eqb y c) eqn:E.
  - apply scope_eqb_ok in E. subst y. rewrite sinsert_in. cbn [In]. intuition.
  - fold (mlist scope_eqb m y). split; [now left|]. intros [K|[-> _]]; [exact K|]. rewrite (proj2 (scope_eqb_ok c c) eq_refl) in E. discriminate E.
Qed.
Lemma pos_spreads_collect : collects ps_spreads spread_ev positions_step ps_scope.
Proof.
  intros s [cx x] H c SC. unfold positions_step. cbn [fst snd]. unfold spread_ev. cbn [snd].
  destruct x; try (destruct H as [H|[H|H]]; discriminate H);
    try (split; [exact SC|]; intros y v'; cbn; tauto); rewrite SC;
    try (destruct (c_input cx)); (split; [first [exact SC|reflexivity]|]); intros y v'; cbn [ps_spreads];
    try solve [apply sinsert_list]; cbn; tauto.
Qed.
Lemma pos_uses_collect : collects ps_uses use_ev positions_step ps_scope.
Proof.
  intros s [cx x] H c SC. unfold positions_step. cbn [fst snd]. unfold use_ev. cbn [fst snd].
  destruct x; try (destruct H as [H|[H|H]]; discriminate H);
    try (split; [exact SC|]; intros y v'; cbn; tauto); rewrite SC;
    try (destruct (c_input cx)); (split; [first [exact SC|reflexivity]|]); intros y v'; cbn [ps_uses];
    try solve [apply add_in]; cbn; tauto.
Qed.
Lemma pos_spreads_open : opens ps_spreads positions_step ps_scope.
Proof. intros s c [n tc ds set|k n ds vs set]; split; reflexivity. Qed.
Lemma pos_uses_open : opens ps_uses positions_step ps_scope.
Proof. intros s c [n tc ds set|k n ds vs set]; split; reflexivity. Qed.
(* definitions of variables, as lists *)
Lemma pos_defs_inside : forall b s c, (forall x, In x b -> deep (snd x) = true \/ snd x = LeaveOp \/ snd x = LeaveFrag) -> ps_scope s = Some c ->
  NoDup (map fst (ps_defs s)) ->
  NoDup (map fst (ps_defs (fold_left positions_step b s))) /\
  forall y, mlist scope_eqb (ps_defs (fold_left positions_step b s)) y = mlist scope_eqb (ps_defs s) y ++ (if scope_eqb y c then flat_map var_ev b else []).
Proof.
  induction b as [|x b IH]; intros s c H SC ND; cbn [fold_left flat_map].
  - split; [exact ND|]. intros y. destruct (scope_eqb y c); now rewrite app_nil_r.
  - pose proof (proj1 (pos_spreads_collect s x (H x (or_introl eq_refl)) c SC)) as SC'.
    assert (Q : (ps_defs (positions_step s x) = ps_defs s /\ var_ev x = []) \/ (ps_defs (positions_step s x) = madd scope_eqb (ps_defs s) c (var_ev x))).
    { unfold positions_step, var_ev. specialize (H x (or_introl eq_refl)). destruct (snd x); rewrite ?SC; try (left; split; reflexivity); try (right; reflexivity).
      all: destruct H as [H|[H|H]]; try discriminate H; destruct (c_input (fst x)); left; split; reflexivity. }
    destruct (IH (positions_step s x) c (fun z Z => H z (or_intror Z)) SC') as [I1 I2].
    { destruct Q as [[-> _]| ->]; [exact ND|]. unfold madd. now apply (mput_keys _ scope_eqb_ok). }
    split; [exact I1|]. intros y. rewrite I2. destruct Q as [[-> ->]| ->]; [reflexivity|]. rewrite (mlist_add _ scope_eqb_ok).
    destruct (scope_eqb y c); [now rewrite app_assoc|now rewrite !app_nil_r].
Qed.
Lemma pos_defs_doc : forall sch doc s, (forall d, In d doc -> start_type sch d <> None) -> NoDup (map fst (ps_defs s)) ->
  let s' := fold_left positions_step (flat_map (calls sch) doc) s in
  NoDup (map fst (ps_defs s')) /\
  forall y, mlist scope_eqb (ps_defs s') y = mlist scope_eqb (ps_defs s) y ++ flat_map (fun d => if scope_eqb y (scope_of d) then vars_of d else []) doc.
Proof.
  intros sch doc. induction doc as [|d doc IH]; intros s T ND s'.
  - unfold s'. cbn. split; [exact ND|]. intros y. now rewrite app_nil_r.
  - unfold s'. cbn [flat_map]. rewrite fold_left_app.
    destruct (start_type sch d) as [ty|] eqn:SD; [|now destruct (T d (or_introl eq_refl))].
    pose proof (calls_vars sch d ty SD) as CV.
    destruct (calls_shape _ _ _ SD) as (b & EB & H). rewrite EB in CV |- *. cbn [fold_left].
    destruct (pos_defs_inside (b ++ [(def_ctx ty, last_ev d)]) (positions_step s (def_ctx ty, first_ev d)) (scope_of d)) as [D1 D2].
    { intros x X. apply in_app_iff in X. destruct X as [X|[<-|[]]]; [left; now apply H|right; destruct d; cbn; auto]. }
    { now destruct d. }
    { destruct d; exact ND. }
    destruct (IH (fold_left positions_step (b ++ [(def_ctx ty, last_ev d)]) (positions_step s (def_ctx ty, first_ev d)))) as [I1 I2].
    { intros d' D'. apply T. now right. }
    { exact D1. }
    split; [exact I1|]. intros y. rewrite I2, D2.
    replace (ps_defs (positions_step s (def_ctx ty, first_ev d))) with (ps_defs s) by now destruct d.
    rewrite <- app_assoc. do 2 f_equal. destruct (scope_eqb y (scope_of d)); [|reflexivity]. rewrite <- CV. cbn [flat_map]. now destruct d.
Qed.

Lemma position_input : forall sch, inputs_ok sch -> forall strict t df v t' df' x, position sch strict t df v t' df' x ->
  plain_type t /\ input_base sch t -> plain_type t' /\ input_base sch t'.
Proof.
  intros sch IO strict t df v t' df' x P. induction P as [t df x|t df l u v t' df' x I E P IH|t df o k v ty f t' df' x I N F E P IH]; intros [A B].
  - now split.
  - apply IH. destruct E as [->|[_ ->]]; split; try exact B; exact A.
  - apply IH. destruct N as [N1 N2]. assert (J : input_in sch (inputs_of ty)) by now apply input_object.
    split; [now apply (io_plain _ IO _ _ J)|]. intros td TD. exact (io_types _ IO _ _ _ J F TD).
Qed.
Lemma typed_use_input : forall sch, inputs_ok sch -> forall strict d t df x, typed_use sch strict d t df x -> plain_type t /\ input_base sch t.
Proof.
  intros sch IO strict d t df x U.
  assert (Q : exists l a v, input_in sch l /\ In a l /\ position sch strict (iv_type a) (defaulted a) v t df x).
  { destruct U as [ty n args sub f a v t df x F SE A I P|dir defs rep ls a v t df x U D A I P].
    - destruct SE as (t0 & (u & _ & T0 & _) & FI & _). exists (f_args f), a, v. split; [eapply input_field; eassumption|]. now split.
    - exists defs, a, v. split; [eapply input_directive; eassumption|]. now split. }
  destruct Q as (l & a & v & IN & A & P). eapply position_input; [exact IO|exact P|]. split; [now apply (io_plain _ IO _ _ IN)|].
  intros td TD. exact (io_types _ IO _ _ _ IN A TD).
Qed.
Lemma position_loose : forall sch t df v t' df' x, position sch true t df v t' df' x -> position sch false t df v t' df' x.
Proof.
  intros sch t df v t' df' x P. induction P as [t df x|t df l u v t' df' x I E P IH|t df o k v ty f t' df' x I N F E P IH].
  - constructor.
  - eapply position_item; [exact I| |exact IH]. destruct E as [->|[E _]]; [now left|discriminate E].
  - eapply position_entry; eassumption.
Qed.
Lemma typed_use_loose : forall sch d t df x, typed_use sch true d t df x -> typed_use sch false d t df x.
Proof.
  intros sch d t df x [ty n args sub f a v t' df' x' F SE A I P|dir defs rep ls a v t' df' x' U D A I P].
  - eapply use_argument; try eassumption. now apply position_loose.
  - eapply use_directive; try eassumption. now apply position_loose.
Qed.

Section Positions.
  Variable sch : list definition.
  Hypothesis WF : well_formed sch.
  Hypothesis IO : inputs_ok sch.
  Variable doc : list qdef.
  Variable l : list call.
  Hypothesis W : walk sch doc = Some l.
  Hypothesis ND : NoDup (operation_ids doc).
  Hypothesis VARS : forall k n ds vs set, In (QOp k n ds vs set) doc -> NoDup (map vd_name vs).
  Hypothesis CONST : constant_defaults doc.
  Definition placed_all : pstate := fold_left positions_step (flat_map (calls sch) doc) (mkpstate None [] [] []).
  Lemma const_one : forall d, In d doc -> constant_defaults [d].
  Proof.
    intros d D y x v V. apply CONST. destruct V as (k & n & ds & vs & set & I & V). destruct I as [->|[]]. exists k, n, ds, vs, set. now split.
  Qed.
  Lemma placed_spreads : forall y n, In n (mlist scope_eqb (ps_spreads placed_all) y) <-> exists d, In d doc /\ y = scope_of d /\ spreads d n.
  Proof.
    intros y n. unfold placed_all. rewrite (collect_doc ps_spreads spread_ev positions_step ps_scope sch pos_spreads_collect pos_spreads_open).
    - cbn. split.
      + intros [[]|(d & D & E & K)]. exists d. split; [exact D|]. split; [exact E|]. destruct (start_type sch d) as [ty|] eqn:SD; [|now destruct (starts _ _ _ W d D)].
        now apply (calls_spreads _ WF _ _ SD) in K.
      + intros (d & D & E & K). right. exists d. split; [exact D|]. split; [exact E|]. destruct (start_type sch d) as [ty|] eqn:SD; [|now destruct (starts _ _ _ W d D)].
        now apply (calls_spreads _ WF _ _ SD).
    - now intros c [].
    - exact (starts _ _ _ W).
  Qed.
  Lemma placed_uses : forall y x t df, In (x, t, df) (mlist scope_eqb (ps_uses placed_all) y) <-> exists d, In d doc /\ y = scope_of d /\ typed_use sch true d t df x.
  Proof.
    intros y x t df. unfold placed_all. rewrite (collect_doc ps_uses use_ev positions_step ps_scope sch pos_uses_collect pos_uses_open).
    - cbn. split.
      + intros [[]|(d & D & E & K)]. exists d. split; [exact D|]. split; [exact E|]. destruct (start_type sch d) as [ty|] eqn:SD; [|now destruct (starts _ _ _ W d D)].
        now apply (calls_uses _ WF _ _ SD IO (const_one d D)) in K.
      + intros (d & D & E & K). right. exists d. split; [exact D|]. split; [exact E|]. destruct (start_type sch d) as [ty|] eqn:SD; [|now destruct (starts _ _ _ W d D)].
        now apply (calls_uses _ WF _ _ SD IO (const_one d D)).
    - now intros c [].
    - exact (starts _ _ _ W).
  Qed.
  Lemma vars_at : forall n, flat_map (fun d => if scope_eqb (InOperation n) (scope_of d) then vars_of d else []) doc <> [] ->
    exists k ds vs set, In (QOp k n ds vs set) doc.
  Proof.
    intros n H. destruct (flat_map (fun d => if scope_eqb (InOperation n) (scope_of d) then vars_of d else []) doc) as [|v r] eqn:E; [now destruct H|].
    assert (V : In v (flat_map (fun d => if scope_eqb (InOperation n) (scope_of d) then vars_of d else []) doc)) by (rewrite E; now left).
    apply in_flat_map in V. destruct V as (d & D & V). destruct (scope_eqb (InOperation n) (scope_of d)) eqn:S; [|destruct V].
    apply scope_eqb_ok in S. destruct d as [m tc ds set|k m ds vs set]; [discriminate S|]. injection S as <-. now exists k, ds, vs, set.
  Qed.
  Lemma vars_one : forall k n ds vs set, In (QOp k n ds vs set) doc ->
    flat_map (fun d => if scope_eqb (InOperation n) (scope_of d) then vars_of d else []) doc = vs.
  Proof.
    clear W VARS CONST. induction doc as [|d doc' IH]; intros k n ds vs set I; [destruct I|].
    assert (NIL : ~ In n (operation_ids doc') -> flat_map (fun d => if scope_eqb (InOperation n) (scope_of d) then vars_of d else []) doc' = []).
    { clear. induction doc' as [|d doc' IH]; intros N; [reflexivity|]. cbn [flat_map]. destruct (scope_eqb (InOperation n) (scope_of d)) eqn:S.
      - apply scope_eqb_ok in S. destruct d as [m tc ds set|k m ds vs set]; [discriminate S|]. injection S as <-. destruct N. now left.
      - cbn. apply IH. intros K. apply N. destruct d; [exact K|now right]. }
    assert (ID : forall k n ds vs set, In (QOp k n ds vs set) doc' -> In n (operation_ids doc')).
    { intros. unfold operation_ids. apply in_flat_map. eexists. split; [eassumption|now left]. }
    cbn [flat_map]. destruct I as [->|I].
    - cbn [scope_of]. rewrite (proj2 (scope_eqb_ok _ _) eq_refl). inversion ND; subst. rewrite NIL by assumption. apply app_nil_r.
    - destruct (scope_eqb (InOperation n) (scope_of d)) eqn:S.
      + apply scope_eqb_ok in S. destruct d as [m tc ds' set'|k' m ds' vs' set']; [discriminate S|]. injection S as <-. inversion ND as [|a b NI ND']; subst.
        destruct NI. eapply ID. exact I.
      + cbn. eapply IH; [|exact I]. destruct d; [exact ND|now inversion ND].
  Qed.
  Lemma vars_fragment : forall m, flat_map (fun d => if scope_eqb (InFragment m) (scope_of d) then vars_of d else []) doc = [].
  Proof.
    clear. intros m. induction doc as [|d doc' IH]; [reflexivity|]. cbn [flat_map]. rewrite IH. destruct d; cbn [scope_of vars_of]; [|reflexivity]. now destruct (scope_eqb (InFragment m) (InFragment name)).
  Qed.
  Lemma placed_defs : forall y vs, vs <> [] -> (In (y, vs) (ps_defs placed_all) <-> exists k n ds set, y = InOperation n /\ In (QOp k n ds vs set) doc).
  Proof.
    intros y vs NE. destruct (pos_defs_doc sch doc (mkpstate None [] [] []) (starts _ _ _ W) ltac:(constructor)) as [A B]. fold placed_all in A, B.
    assert (B' : forall y, mlist scope_eqb (ps_defs placed_all) y = flat_map (fun d => if scope_eqb y (scope_of d) then vars_of d else []) doc) by (intros y'; now rewrite B).
    clear B. split.
    - intros I. apply (in_mget _ scope_eqb_ok _ _ _ A) in I. specialize (B' y). unfold mlist in B'. rewrite I in B'. destruct y as [n|m].
      + destruct (vars_at n) as (k & ds & vs' & set & J); [now rewrite <- B'|]. pose proof (vars_one _ _ _ _ _ J) as V. rewrite <- B' in V. subst vs'. now exists k, n, ds, set.
      + rewrite vars_fragment in B'. contradiction.
    - intros (k & n & ds & set & -> & I). apply vars_one in I. specialize (B' (InOperation n)). rewrite I in B'. unfold mlist in B'.
      destruct (mget scope_eqb (ps_defs placed_all) (InOperation n)) as [x|] eqn:G; [|now destruct NE]. subst x. now apply (mget_in _ scope_eqb_ok).
  Qed.
  Lemma uses_found : forall us vs order start e,
    In e (fold_left (fun a x => look_uses sch us vs x a) order start) <-> In e start \/ exists x u, In x order /\ In u (mlist scope_eqb us x) /\ In e (bad_use sch vs u).
  Proof.
    intros us vs order. induction order as [|x order IH]; intros start e; cbn [fold_left].
    - split; [now left|]. intros [K|(x & u & [] & _)]. exact K.
    - rewrite IH. unfold look_uses at 1. rewrite in_app_iff, in_flat_map. split.
      + intros [[K|(u & U & K)]|(y & u & Y & K)]; [now left|right; exists x, u; split; [now left|now split]|right; exists y, u; split; [now right|exact K]].
      + intros [K|(y & u & [<-|Y] & U & K)]; [left; now left|left; right; now exists u|right; now exists y, u].
  Qed.
  Lemma positions_ok : forall e, In e (errors_of (variables_in_allowed_position sch) l) <->
    exists k n ds vs set v d t df u, In (QOp k n ds vs set) doc /\ In v vs /\ reaches doc (QOp k n ds vs set) d /\ typed_use sch true d t df (vd_name v) /\
      ~ allowed v t df /\ counts_as v u /\ e = BadUse (vd_name v) u t.
  Proof.
    intros e. change (errors_of (variables_in_allowed_position sch) l) with (out (v_step (variables_in_allowed_position sch)) (mkpstate None [] [] []) l).
    rewrite (run_end (v_step (variables_in_allowed_position sch)) positions_step (fun s => flat_map (bad_uses_in sch s) (ps_defs s)) _ sch doc).
    2:{ intros s [c x] H. cbn. destruct x; try reflexivity. now destruct H. }
    2:{ intros s [c x] H. cbn in *. rewrite H. reflexivity. }
    2:{ reflexivity. }
    2:{ exact W. }
    match goal with |- In _ ?L <-> _ => change L with (flat_map (bad_uses_in sch placed_all) (ps_defs placed_all)) end.
    rewrite in_flat_map. split.
    - intros ([y vs] & I & K). unfold bad_uses_in in K. cbn [fst snd] in K.
      destruct (explored (look_uses sch (ps_uses placed_all) vs) (ps_spreads placed_all) y []) as (order & E & O). rewrite E in K.
      apply uses_found in K. destruct K as [[]|(z & [[x t] df] & Z & U & K)].
      assert (NE : vs <> []) by (intros ->; exact K). apply placed_defs in I; [|exact NE]. destruct I as (k & n & ds & set & -> & I).
      apply O in Z. apply placed_uses in U. destruct U as (d & D & -> & U).
      destruct (typed_use_input _ IO _ _ _ _ _ U) as [P1 P2].
      apply (bad_use_ok sch vs x t df e (VARS _ _ _ _ _ I) P1 P2) in K. destruct K as (v & u & V & <- & C & A & ->).
      exists k, n, ds, vs, set, v, d, t, df, u. split; [exact I|]. split; [exact V|].
      split; [exact (proj1 (scopes doc ND _ placed_spreads _ _ _ _ _ I) _ Z d D eq_refl)|]. auto.
    - intros (k & n & ds & vs & set & v & d & t & df & u & I & V & R & U & A & C & ->).
      assert (NE : vs <> []) by (intros ->; destruct V).
      exists (InOperation n, vs). split; [apply placed_defs; [exact NE|now exists k, n, ds, set]|].
      unfold bad_uses_in. cbn [fst snd].
      destruct (explored (look_uses sch (ps_uses placed_all) vs) (ps_spreads placed_all) (InOperation n) []) as (order & E & O). rewrite E.
      apply uses_found. right. destruct (proj2 (scopes doc ND _ placed_spreads _ _ _ _ _ I) d R) as [D RR].
      exists (scope_of d), (vd_name v, t, df). split; [now apply O|]. split; [apply placed_uses; now exists d|].
      destruct (typed_use_input _ IO _ _ _ _ _ U) as [P1 P2].
      apply (bad_use_ok sch vs _ t df _ (VARS _ _ _ _ _ I) P1 P2). exists v, u. auto.
  Qed.
End Positions.

(* * Unused fragments *)
Definition fragments_step (s : fstate) (x : call) : fstate :=
  match snd x with
  | EnterFrag n _ _ _ => mkfstate (fs_in_use s) [] (Some n) (fs_spreads s)
  | LeaveFrag => match fs_current s with Some n => mkfstate (fs_in_use s) [] None (mput String.eqb (fs_spreads s) n (fs_spreads_here s)) | None => s end
  | EnterSpread n _ =>
      match fs_current s with
      | Some _ => mkfstate (fs_in_use s) (fs_spreads_here s ++ [n]) (fs_current s) (fs_spreads s)
      | None => mkfstate (fs_in_use s ++ [n]) (fs_spreads_here s) (fs_current s) (fs_spreads s)
      end
  | _ => s
  end.
Lemma fragments_inside : forall b s, (forall x, In x b -> deep (snd x) = true) ->
  fs_current (fold_left fragments_step b s) = fs_current s /\ fs_spreads (fold_left fragments_step b s) = fs_spreads s /\
  match fs_current s with
  | Some _ => fs_in_use (fold_left fragments_step b s) = fs_in_use s /\ fs_spreads_here (fold_left fragments_step b s) = fs_spreads_here s ++ flat_map spread_ev b
  | None => fs_in_use (fold_left fragments_step b s) = fs_in_use s ++ flat_map spread_ev b
  end.
Proof.
  induction b as [|x b IH]; intros s H; cbn [fold_left flat_map].
  - destruct (fs_current s); rewrite ?app_nil_r; auto.
  - destruct (IH (fragments_step s x) (fun z Z => H z (or_intror Z))) as (A & B & C). rewrite A, B. clear A B IH. specialize (H x (or_introl eq_refl)).
    assert (Q : (fragments_step s x = s /\ spread_ev x = []) \/ exists n, spread_ev x = [n] /\ fragments_step s x =
      match fs_current s with
      | Some _ => mkfstate (fs_in_use s) (fs_spreads_here s ++ [n]) (fs_current s) (fs_spreads s)
      | None => mkfstate (fs_in_use s ++ [n]) (fs_spreads_here s) (fs_current s) (fs_spreads s)
      end).
    { destruct x as [cx x]. unfold fragments_step, spread_ev. cbn [snd] in *. destruct x; try discriminate H; try (left; split; reflexivity).
      right. eexists. split; reflexivity. }
    destruct Q as [[E1 E2]|(n & E2 & E1)].
    + rewrite E1 in *. rewrite E2. split; [reflexivity|]. split; [reflexivity|]. exact C.
    + rewrite E2. destruct (fs_current s) as [m|] eqn:CU; rewrite E1 in *; cbn [fs_current fs_spreads fs_in_use fs_spreads_here] in *.
      * split; [reflexivity|]. split; [reflexivity|]. destruct C as [C1 C2]. split; [exact C1|]. rewrite C2, <- app_assoc. reflexivity.
      * split; [reflexivity|]. split; [reflexivity|]. rewrite C, <- app_assoc. reflexivity.
Qed.
Lemma fragments_doc : forall sch doc s, (forall d, In d doc -> start_type sch d <> None) -> NoDup (fragment_names doc) -> fs_current s = None ->
  let s' := fold_left fragments_step (flat_map (calls sch) doc) s in
  fs_current s' = None /\
  (forall n, In n (fs_in_use s') <-> In n (fs_in_use s) \/ exists k m ds vs set, In (QOp k m ds vs set) doc /\ In n (flat_map spread_ev (calls sch (QOp k m ds vs set)))) /\
  (forall m, ~ In m (fragment_names doc) -> mget String.eqb (fs_spreads s') m = mget String.eqb (fs_spreads s) m) /\
  (forall m tc ds set, In (QFrag m tc ds set) doc -> mget String.eqb (fs_spreads s') m = Some (flat_map spread_ev (calls sch (QFrag m tc ds set)))).
Proof.
  intros sch doc. induction doc as [|d doc IH]; intros s T ND CU s'.
  - unfold s'. cbn. split; [exact CU|]. split; [|split; [reflexivity|intros ? ? ? ? []]]. intros n. split; [now left|]. intros [K|(k & m & ds & vs & set & [] & _)]. exact K.
  - unfold s'. cbn [flat_map]. rewrite fold_left_app.
    destruct (start_type sch d) as [ty|] eqn:SD; [|now destruct (T d (or_introl eq_refl))].
    destruct (calls_shape _ _ _ SD) as (b & EB & H).
    assert (T' : forall d', In d' doc -> start_type sch d' <> None) by (intros d' D'; apply T; now right).
    destruct d as [n tc ds set|k n ds vs set].
    + assert (EV : flat_map spread_ev (calls sch (QFrag n tc ds set)) = flat_map spread_ev b) by (rewrite EB; cbn; rewrite flat_map_app; cbn; apply app_nil_r).
      rewrite EB. cbn [first_ev last_ev fold_left]. rewrite fold_left_app. cbn [fold_left].
      set (s1 := fragments_step s (def_ctx ty, EnterFrag n tc ds set)). destruct (fragments_inside b s1 H) as (A & B & C). change (fs_current s1) with (Some n) in A, C. cbv iota in C. destruct C as [C1 C2].
      set (s2 := fold_left fragments_step b s1) in *.
      assert (E2 : fragments_step s2 (def_ctx ty, LeaveFrag) = mkfstate (fs_in_use s) [] None (mput String.eqb (fs_spreads s) n (flat_map spread_ev b))).
      { unfold fragments_step. cbn [snd]. rewrite A, C1, C2, B. reflexivity. }
      match goal with |- context [fragments_step ?X (def_ctx ty, LeaveFrag)] => change (fragments_step X (def_ctx ty, LeaveFrag)) with (fragments_step s2 (def_ctx ty, LeaveFrag)) end.
      rewrite E2. change (fragment_names (QFrag n tc ds set :: doc)) with (n :: fragment_names doc) in ND |- *. inversion ND as [|a b' NI ND']; subst.
      destruct (IH (mkfstate (fs_in_use s) [] None (mput String.eqb (fs_spreads s) n (flat_map spread_ev b))) T' ND' eq_refl) as (I1 & I2 & I3 & I4). cbn [fs_in_use fs_spreads] in I2, I3.
      split; [exact I1|]. split; [|split].
      * intros m. rewrite I2. split; (intros [K|(k & m' & ds' & vs & set' & I & K)]; [now left|right]).
        -- exists k, m', ds', vs, set'. split; [now right|exact K].
        -- destruct I as [I|I]; [discriminate I|]. now exists k, m', ds', vs, set'.
      * intros m M. rewrite I3 by (intros K; apply M; now right). rewrite (mget_put _ ss_eq). destruct (String.eqb m n) eqn:E; [|reflexivity].
        apply String.eqb_eq in E. subst. destruct M. now left.
      * intros m tc' ds' set' [E|I]; [|eapply I4; exact I]. injection E as <- <- <- <-. rewrite I3 by exact NI. rewrite (mget_put _ ss_eq), String.eqb_refl. now rewrite EV.
    + assert (EV : flat_map spread_ev (calls sch (QOp k n ds vs set)) = flat_map spread_ev b) by (rewrite EB; cbn; rewrite flat_map_app; cbn; apply app_nil_r).
      rewrite EB. cbn [first_ev last_ev fold_left]. rewrite fold_left_app. cbn [fold_left].
      change (fragments_step s (def_ctx ty, EnterOp k n ds vs set)) with s. destruct (fragments_inside b s H) as (A & B & C). rewrite CU in C.
      set (s2 := fold_left fragments_step b s) in *. match goal with |- context [fragments_step ?X (def_ctx ty, LeaveOp)] => change (fragments_step X (def_ctx ty, LeaveOp)) with s2 end.
      change (fragment_names (QOp k n ds vs set :: doc)) with (fragment_names doc) in ND |- *.
      destruct (IH s2 T' ND ltac:(now rewrite A)) as (I1 & I2 & I3 & I4). rewrite B in I3.
      split; [exact I1|]. split; [|split].
      * intros m. rewrite I2, C, in_app_iff. split.
        -- intros [[K|K]|(k' & m' & ds' & vs' & set' & I & K)]; [now left|right|right].
           ++ exists k, n, ds, vs, set. split; [now left|now rewrite EV].
           ++ exists k', m', ds', vs', set'. split; [now right|exact K].
        -- intros [K|(k' & m' & ds' & vs' & set' & [E|I] & K)]; [left; now left|left; right|right].
           ++ injection E as <- <- <- <- <-. now rewrite EV in K.
           ++ now exists k', m', ds', vs', set'.
      * exact I3.
      * intros m tc' ds' set' [E|I]; [discriminate E|]. eapply I4. exact I.
Qed.
Lemma fragment_keys_in : forall doc found n, In n (fragment_keys doc found) <-> In n found \/ In n (fragment_names doc).
Proof.
  induction doc as [|[m tc ds set|k m ds vs set] doc IH]; intros found n; cbn [fragment_keys].
  - cbn. tauto.
  - rewrite IH, sinsert_in. change (fragment_names (QFrag m tc ds set :: doc)) with (m :: fragment_names doc). cbn [In]. intuition.
  - apply IH.
Qed.
Lemma no_unused_fragments_ok : forall sch doc l, well_formed sch -> walk sch doc = Some l -> NoDup (fragment_names doc) ->
  forall e, In e (errors_of (no_unused_fragments doc) l) <-> exists n, e = UnusedFragment n /\ In n (fragment_names doc) /\ ~ fragment_used doc n.
Proof.
  intros sch doc l WF W ND e. change (errors_of (no_unused_fragments doc) l) with (out (v_step (no_unused_fragments doc)) (mkfstate [] [] None []) l).
  rewrite (run_end (v_step (no_unused_fragments doc)) fragments_step (unused_fragments doc) _ sch doc).
  2:{ intros s [c x] H. cbn. unfold fragments_step. cbn [snd]. destruct x; try reflexivity. now destruct H. }
  2:{ intros s [c x] H. cbn in *. rewrite H. reflexivity. }
  2:{ reflexivity. }
  2:{ exact W. }
  destruct (fragments_doc sch doc (mkfstate [] [] None []) (starts _ _ _ W) ND eq_refl) as (_ & A & B & C).
  match goal with |- In _ (unused_fragments doc ?S) <-> _ => set (s := S) in * end.
  change (fold_left fragments_step (flat_map (calls sch) doc) {| fs_in_use := []; fs_spreads_here := []; fs_current := None; fs_spreads := [] |}) with s in A, B, C.
  cbn [fs_in_use fs_spreads] in A, B.
  assert (SP : forall d n, In d doc -> (In n (flat_map spread_ev (calls sch d)) <-> spreads d n)).
  { intros d n D. destruct (start_type sch d) as [ty|] eqn:SD; [|now destruct (starts _ _ _ W d D)]. apply (calls_spreads _ WF _ _ SD). }
  assert (Q : forall n, queue_reach (fs_spreads s) (fs_in_use s) n <-> fragment_used doc n).
  { intros n. split.
    - intros R. induction R as [n I|m n ls R IH G I].
      + apply A in I. destruct I as [[]|(k & m & ds & vs & set & D & I)]. apply (SP _ _ D) in I. exists k, m, ds, vs, set, (QOp k m ds vs set).
        split; [exact D|]. split; [constructor|exact I].
      + destruct IH as (k & m' & ds & vs & set & d & D & RR & S).
        destruct (in_dec string_dec m (fragment_names doc)) as [F|F]; [|rewrite (B m F) in G; discriminate G].
        apply in_flat_map in F. destruct F as (f & F & E). destruct f as [m0 tc fds fset|]; [|destruct E]. destruct E as [->|[]].
        rewrite (C _ _ _ _ F) in G. injection G as <-. apply (SP _ _ F) in I.
        exists k, m', ds, vs, set, (QFrag m tc fds fset). split; [exact D|]. split; [|exact I]. eapply reaches_spread; eassumption.
    - intros (k & m & ds & vs & set & d & D & R & S).
      assert (P : In d doc /\ (d = QOp k m ds vs set \/ exists f tc fds fset, d = QFrag f tc fds fset /\ queue_reach (fs_spreads s) (fs_in_use s) f)).
      { clear S. induction R as [|e0 f tc fds fset R IH S F]; [split; [exact D|now left]|]. split; [exact F|]. right. exists f, tc, fds, fset. split; [reflexivity|].
        destruct IH as [E0 [->|(f0 & tc0 & ds0 & set0 & -> & Q0)]].
        - apply queue_start. apply A. right. exists k, m, ds, vs, set. split; [exact D|]. now apply SP.
        - eapply queue_next; [exact Q0|exact (C _ _ _ _ E0)|]. now apply SP. }
      destruct P as [E0 [->|(f0 & tc0 & ds0 & set0 & -> & Q0)]].
      + apply queue_start. apply A. right. exists k, m, ds, vs, set. split; [exact D|]. now apply SP.
      + eapply queue_next; [exact Q0|exact (C _ _ _ _ E0)|]. now apply SP. }
  unfold unused_fragments. destruct (queued (fs_spreads s) (fs_in_use s) (List.length (fs_in_use s) + List.length (flat_map snd (fs_spreads s))) (le_n _)) as (r & -> & O).
  rewrite in_map_iff. split.
  - intros (n & <- & I). apply filter_In in I. destruct I as [I N]. apply fragment_keys_in in I. destruct I as [[]|I]. apply negb_true_iff, smem_not in N.
    exists n. split; [reflexivity|]. split; [exact I|]. intros U. now apply N, O, Q.
  - intros (n & -> & I & N). exists n. split; [reflexivity|]. apply filter_In. split; [apply fragment_keys_in; now right|]. apply negb_true_iff, smem_not.
    intros K. now apply N, Q, O.
Qed.
