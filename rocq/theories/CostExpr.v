From Coq Require Import String List Bool NArith ZArith Lia.
From Verif Require Import StrOrd Ast JsonModel MergeModel TraverseModel RewriteModel RequiresModel EntityModel
  ExecModel CondModel CostModel CostSpec CostProofs.
Import ListNotations.
Local Open Scope N_scope.
Local Open Scope string_scope.
Local Open Scope list_scope.

Section D.
Context (sc : cschema) (vars : option (list (string * value))) (Q : Prop).

(** The expression stands for the number; where [Q] holds it has a value. *)
Definition den (e : cexpr) (n : N) : Prop :=
  (forall c, eval sc vars e = COk c -> same_u64 c n) /\ (Q -> exists c, eval sc vars e = COk c).

Definition sum_all : list cexpr -> N -> cres N :=
  fix sum (l : list cexpr) (total : N) : cres N :=
    match l with
    | [] => COk total
    | x :: l' => cbind (eval sc vars x) (fun c => sum l' (sat_add total c))
    end.
Lemma eval_add l : eval sc vars (EAdd l) = sum_all l 0.
Proof. reflexivity. Qed.
Lemma sum_all_cons x l t : sum_all (x :: l) t = cbind (eval sc vars x) (fun c => sum_all l (sat_add t c)).
Proof. reflexivity. Qed.

Lemma sum_den l ns : Forall2 den l ns -> forall t t', same_u64 t t' ->
  (forall c, sum_all l t = COk c -> same_u64 c (t' + total ns)) /\ (Q -> exists c, sum_all l t = COk c).
Proof.
  induction 1 as [|e n l ns [H1 H2] _ IH]; intros t t' T.
  - split; [|eauto using @eq_refl]. cbn. intros c E. injection E as <-. rewrite N.add_0_r. exact T.
  - rewrite sum_all_cons. split.
    + intros c E. destruct (eval sc vars e) as [x|] eqn:Ee; [|discriminate]. cbn [cbind] in E.
      destruct (IH (sat_add t x) (t' + n)) as [I1 _]; [apply same_sat_add; auto|].
      apply I1 in E. cbn [total]. rewrite N.add_assoc. exact E.
    + intros q. destruct (H2 q) as [x Ee]. rewrite Ee. cbn [cbind].
      destruct (IH (sat_add t x) (t' + n)) as [_ I2]; [apply same_sat_add; auto|]. auto.
Qed.
Lemma add_den l ns : Forall2 den l ns -> den (EAdd l) (total ns).
Proof. intros H. destruct (sum_den l ns H 0 0 (same_refl 0)) as [A B]. split; rewrite eval_add; [|exact B]. exact A. Qed.

Lemma den_same e a b : den e a -> same_u64 a b -> den e b.
Proof. intros [A B] S. split; [|exact B]. intros c E. eapply same_trans; [apply A; exact E|exact S]. Qed.
Lemma const_den n : den (EConst n) n.
Proof. split; [|eexists; reflexivity]. intros c E. cbn in E. injection E as <-. apply same_refl. Qed.
Lemma const_den_inv n m : den (EConst n) m -> same_u64 n m.
Proof. intros [A _]. apply A. reflexivity. Qed.

Lemma consts_den l ns : Forall2 den l ns -> forall t t', same_u64 t t' ->
  exists ks, Forall2 den (filter (fun e => negb (is_const e)) l) ks /\
             same_u64 (total ks + consts l t) (t' + total ns).
Proof.
  induction 1 as [|e n l ns D _ IH]; intros t t' T.
  - exists []. split; [constructor|]. cbn [total consts]. rewrite N.add_0_r. exact T.
  - destruct (is_const e) eqn:Ce.
    + destruct e; try discriminate. cbn [filter is_const negb consts total].
      destruct (IH (sat_add t n0) (t' + n)) as [ks [K S]].
      { apply same_sat_add; [exact T|]. apply const_den_inv. exact D. }
      exists ks. split; [exact K|]. rewrite N.add_assoc. exact S.
    + destruct (IH t t' T) as [ks [K S]]. exists (n :: ks).
      cbn [filter]. rewrite Ce. cbn [negb]. split; [constructor; assumption|].
      replace (consts (e :: l) t) with (consts l t) by (destruct e; try discriminate; reflexivity).
      cbn [total]. eapply same_trans; [|eapply same_trans; [exact (same_add _ _ _ _ (same_refl n) S)|]].
      * rewrite N.add_assoc. apply same_refl.
      * rewrite N.add_assoc, (N.add_comm n t'), <- N.add_assoc. apply same_refl.
Qed.
Lemma add_nonzero_den l ns : Forall2 den l ns -> den (add_nonzero l) (total ns).
Proof.
  intros H. destruct (consts_den l ns H 0 0 (same_refl 0)) as [ks [K S]]. rewrite N.add_0_l in S.
  unfold add_nonzero. set (c := consts l 0) in *. set (es := filter _ l) in *.
  assert (H2 : exists ks', Forall2 den (es ++ (if N.ltb 0 c then [EConst c] else [])) ks' /\ same_u64 (total ks') (total ns)).
  { destruct (N.ltb_spec 0 c) as [P|Z].
    - exists (ks ++ [c]). split; [apply Forall2_app; [exact K|]; constructor; [apply const_den|constructor]|].
      rewrite total_app. cbn [total]. rewrite N.add_0_r. exact S.
    - exists ks. rewrite app_nil_r. split; [exact K|]. replace c with 0 in S by lia. rewrite N.add_0_r in S. exact S. }
  destruct H2 as [ks' [K' S']]. clear K S. set (fs := es ++ _) in *. destruct fs as [|e [|e' fs]].
  - inversion K'; subst. eapply den_same; [apply const_den|exact S'].
  - inversion K' as [|? ? ? ? D N]; subst. inversion N; subst. eapply den_same; [exact D|].
    cbn [total] in S'. rewrite N.add_0_r in S'. exact S'.
  - eapply den_same; [|exact S']. apply add_den. exact K'.
Qed.

Lemma mul_cases (P : cexpr -> Prop) a b :
  (a = EConst 0 -> P (EConst 0)) -> (b = EConst 0 -> P (EConst 0)) ->
  (a = EConst 1 -> P b) -> (b = EConst 1 -> P a) ->
  (forall m n, a = EConst m -> b = EConst n -> P (EConst (sat_mul m n))) -> P (EMul a b) -> P (mul a b).
Proof.
  intros. unfold mul.
  destruct a as [m| | | | | |]; destruct b as [n| | | | | |];
    repeat match goal with |- context[match ?x with _ => _ end] => is_var x; destruct x end; auto.
Qed.
Lemma mul_den a b x y : den a x -> den b y -> den (mul a b) (x * y).
Proof.
  intros A B. apply mul_cases.
  - intros ->. apply const_den_inv in A. apply same_zero in A. subst x. rewrite N.mul_0_l. apply const_den.
  - intros ->. apply const_den_inv in B. apply same_zero in B. subst y. rewrite N.mul_0_r. apply const_den.
  - intros ->. apply const_den_inv in A. eapply den_same; [exact B|].
    eapply same_trans; [|apply same_mul; [exact A|apply same_refl]]. rewrite N.mul_1_l. apply same_refl.
  - intros ->. apply const_den_inv in B. eapply den_same; [exact A|].
    eapply same_trans; [|apply same_mul; [apply same_refl|exact B]]. rewrite N.mul_1_r. apply same_refl.
  - intros m n -> ->. apply const_den_inv in A, B. eapply den_same; [apply const_den|]. apply same_sat_mul; assumption.
  - destruct A as [A1 A2], B as [B1 B2]. split; cbn [eval].
    + intros c E. destruct (eval sc vars a) as [u|]; [|discriminate]. destruct (eval sc vars b) as [v|]; [|discriminate].
      cbn in E. injection E as <-. apply same_sat_mul; auto.
    + intros q. destruct (A2 q) as [u ->], (B2 q) as [v ->]. cbn. eauto.
Qed.

Lemma holds_ok v : variable_equals_true vars v = holds vars v.
Proof.
  unfold variable_equals_true, holds, var. destruct vars as [vs|]; [|reflexivity].
  destruct (get v vs) as [[]|]; reflexivity.
Qed.
Lemma cond_den v t f x y : den t x -> den f y -> den (ECond v t f) (if holds vars v then x else y).
Proof.
  intros T F. unfold den. cbn [eval]. rewrite holds_ok. destruct (holds vars v); [exact T|exact F].
Qed.
Lemma conditions_den inc skip e n : den e n ->
  den (apply_conditions inc skip e) (if present vars inc skip then n else 0).
Proof.
  intros D. unfold apply_conditions, present.
  set (e1 := match inc with Some v => ECond v e (EConst 0) | None => e end).
  assert (D1 : den e1 (if match inc with Some v => holds vars v | None => true end then n else 0)).
  { unfold e1. destruct inc as [v|]; [|exact D]. apply cond_den; [exact D|apply const_den]. }
  destruct skip as [v|]; [|rewrite andb_true_r; exact D1].
  pose proof (cond_den v (EConst 0) e1 0 _ (const_den 0) D1) as D2.
  destruct (holds vars v); cbn [negb]; rewrite ?andb_false_r, ?andb_true_r; exact D2.
Qed.

(** *** Sizes *)
Lemma json_integer_ok path : forall v, json_integer path v = match at_keys path v with Some x => count x | None => None end.
Proof.
  assert (E : forall z, Z.to_N (Z.max z 0) = Z.to_N z) by (intros; lia).
  induction path as [|k path IH]; intros v.
  - destruct v; cbn; rewrite ?E; reflexivity.
  - destruct v; try reflexivity. cbn. destruct (get k o); [apply IH|reflexivity].
Qed.
Lemma get_map (A B : Type) (f : A -> B) k (o : list (string * A)) :
  get k (map (fun kv => (fst kv, f (snd kv))) o) = match get k o with Some v => Some (f v) | None => None end.
Proof. induction o as [|[k' v] o IH]; [reflexivity|]. cbn. unfold str_eqb. destruct (String.eqb k k'); [reflexivity|exact IH]. Qed.
Lemma resolve_ok v : forall path, resolve_integer vars v path = match at_keys path (plug vars v) with Some x => count x | None => None end.
Proof.
  assert (E : forall z, Z.to_N (Z.max z 0) = Z.to_N z) by (intros; lia).
  induction v as [n|z|b|s|b| |s|l IH|o IH] using gvalue_ind'; intros path; try (destruct path; cbn; rewrite ?E; reflexivity).
  - cbn [resolve_integer plug]. rewrite variable_var. destruct (variable vars n) as [j|]; [apply json_integer_ok|].
    destruct path; reflexivity.
  - destruct path; cbn [resolve_integer plug at_keys count]; [rewrite map_length; reflexivity|reflexivity].
  - destruct path as [|k path]; [reflexivity|]. cbn [resolve_integer plug at_keys].
    rewrite get_map. induction o as [|[k' v'] o IHo]; [reflexivity|]. inversion IH as [|? ? Hv Ho]; subst.
    cbn [get]. change (str_eqb k k') with (String.eqb k k'). destruct (String.eqb k k'); [apply Hv|apply IHo; exact Ho].
Qed.
Lemma resolved_ok paths args : resolved vars (slicing_values paths args) = sizes vars paths args.
Proof.
  unfold resolved, slicing_values, sizes. induction paths as [|p paths IH]; [reflexivity|]. cbn [flat_map].
  rewrite flat_map_app, IH. f_equal. destruct (get (fst p) args) as [v|]; [|reflexivity]. cbn [flat_map fst snd].
  rewrite app_nil_r. unfold size_given. rewrite resolve_ok. destruct (at_keys (snd p) (plug vars v)) as [x|]; [|reflexivity].
  destruct (count x); reflexivity.
Qed.
Lemma fold_max l : forall n, fold_left N.max l n = N.max n (greatest l).
Proof. induction l as [|x l IH]; intros n; cbn [fold_left greatest]; [lia|]. rewrite IH. lia. Qed.

Context (dsize : N).
Lemma size_expr_den ls name args :
  (Q -> match ls_assumed ls, ls_slicing ls with
        | None, Some paths => negb (ls_require_one ls) || Nat.eqb (length (sizes vars paths (arguments args))) 1
        | _, _ => true
        end = true) ->
  den (size_expr dsize ls name args) (promised dsize vars ls args).
Proof.
  intros W. unfold size_expr, promised in *. destruct (ls_assumed ls) as [n|]; [apply const_den|].
  destruct (ls_slicing ls) as [paths|]; [|apply const_den].
  set (vs := match args with Some a => slicing_values paths a | None => [] end).
  assert (R : resolved vars vs = sizes vars paths (arguments args)).
  { unfold vs, arguments. destruct args as [a|]; [apply resolved_ok|].
    unfold sizes. cbn. induction paths as [|p paths IHp]; [reflexivity|]. cbn. rewrite <- IHp; [reflexivity|].
    intros q. apply W in q. exact q. }
  destruct (ls_require_one ls).
  - cbn [negb andb]. split; cbn [eval]; unfold list_size_value; rewrite R.
    + intros c E. destruct (sizes vars paths (arguments args)) as [|n [|]]; try discriminate. injection E as <-.
      cbn [greatest]. rewrite N.max_0_r. apply same_refl.
    + intros q. specialize (W q). cbn [negb orb] in W.
      destruct (sizes vars paths (arguments args)) as [|n [|]]; try discriminate. eauto.
  - cbn [negb andb]. destruct vs as [|v vs'] eqn:Ev.
    + cbn in R. rewrite <- R. apply const_den.
    + split; cbn [eval]; unfold list_size_value; rewrite R.
      * intros c E. destruct (sizes vars paths (arguments args)) as [|n l]; injection E as <-; [apply same_refl|].
        rewrite fold_max. cbn [greatest]. apply same_refl.
      * intros _. destruct (sizes vars paths (arguments args)); eauto.
Qed.

(** *** Arguments *)
Lemma untyped_free t : is_input_typed sc t = false -> forall v, weigh sc t v = 0.
Proof.
  assert (H : forall v t, is_input_typed sc t = false -> weigh sc t v = 0); [|auto].
  assert (S : forall t, is_input_typed sc (strip t) = is_input_typed sc t) by (intros t0; induction t0; cbn; auto).
  induction v as [|fbits|iz|un|bb|str|raw|l IH|o IH] using value_ind'; intros t0 H; try reflexivity; cbn [weigh]; rewrite <- S in H.
  - destruct (strip t0) as [n|t'|t']; try reflexivity. cbn in H. induction l as [|x l IHl]; [reflexivity|].
    inversion IH; subst. cbn [map total]. rewrite (H2 _ H). rewrite IHl; [reflexivity|assumption].
  - destruct (strip t0) as [n|t'|t']; try reflexivity. cbn in H. destruct (get n sc) as [[]|]; try reflexivity. discriminate.
Qed.
Lemma base_same d args : same_u64 (base_cost d args)
  ((match cf_cost d with Some w => w | None => 0 end)
   + total (map (fun kv : string * gvalue => match get (fst kv) (cf_arg_costs d) with Some w => w | None => 0 end) (arguments args))).
Proof.
  unfold base_cost, arguments, or_zero. set (b := match cf_cost d with Some w => w | None => 0 end).
  destruct args as [a|]; [|cbn; rewrite N.add_0_r; apply same_refl].
  assert (H : forall b b', same_u64 b b' ->
    same_u64 (fold_left (fun c (kv : string * gvalue) => match get (fst kv) (cf_arg_costs d) with Some w => sat_add c w | None => c end) a b)
      (b' + total (map (fun kv : string * gvalue => match get (fst kv) (cf_arg_costs d) with Some w => w | None => 0 end) a))).
  { induction a as [|[k v] a IH]; intros x y S; cbn [fold_left map total fst]; [rewrite N.add_0_r; exact S|].
    rewrite N.add_assoc. apply IH. destruct (get k (cf_arg_costs d)) as [w|]; [apply same_sat_add; [exact S|apply same_refl]|].
    rewrite N.add_0_r. exact S. }
  apply H. apply same_refl.
Qed.
Lemma nonzero_den n m : same_u64 n m -> exists ns, Forall2 den (nonzero n) ns /\ total ns = m.
Proof.
  intros S. unfold nonzero. destruct (N.ltb_spec 0 n).
  - exists [m]. split; [constructor; [|constructor]|cbn; lia]. eapply den_same; [apply const_den|exact S].
  - exists []. split; [constructor|]. replace n with 0 in S by lia. apply same_zero in S. subst. reflexivity.
Qed.
Lemma unless_zero_den e n : den e n -> exists ns, Forall2 den (unless_zero e) ns /\ total ns = n.
Proof.
  intros D. unfold unless_zero.
  assert (K : exists ns, Forall2 den [e] ns /\ total ns = n).
  { exists [n]. split; [constructor; [exact D|constructor]|cbn; lia]. }
  destruct e as [[|p]| | | | | |]; try exact K.
  apply const_den_inv, same_zero in D. subst n. exists []. split; [constructor|reflexivity].
Qed.

Lemma inputs_den d args :
  (forall k v t, In (k, v) (arguments args) -> get k (cf_arg_types d) = Some t -> weigh sc t (plug vars v) <= u64_max) ->
  exists ns, Forall2 den (input_exprs sc d args) ns /\
    total ns = total (map (fun kv => match get (fst kv) (cf_arg_types d) with Some t => weigh sc t (plug vars (snd kv)) | None => 0 end)
                          (arguments args)).
Proof.
  unfold input_exprs, arguments. destruct args as [a|]; [|intros _; exists []; split; [constructor|reflexivity]].
  induction a as [|[k v] a IH]; intros B; [exists []; split; [constructor|reflexivity]|].
  destruct IH as [ns [F E]]. { intros k' v' t I. apply (B k' v' t). right. exact I. }
  cbn [flat_map map total fst snd]. destruct (get k (cf_arg_types d)) as [t|] eqn:Et.
  - destruct (is_input_typed sc t) eqn:It.
    + exists (weigh sc t (plug vars v) :: ns). split; [|cbn [total]; rewrite E; reflexivity].
      constructor; [|exact F]. split; [|intros _; eexists; reflexivity].
      intros c Ec. cbn [eval] in Ec. injection Ec as <-. rewrite input_exact; [apply same_refl|].
      apply (B k v t); [left; reflexivity|exact Et].
    + exists ns. split; [exact F|]. rewrite (untyped_free t It), N.add_0_l. exact E.
  - exists ns. split; [exact F|]. rewrite N.add_0_l. exact E.
Qed.
Lemma total_add (A : Type) (f g : A -> N) l : total (map (fun x => f x + g x) l) = total (map f l) + total (map g l).
Proof. induction l; cbn [map total]; lia. Qed.
Lemma base_parts_den d args :
  (forall k v t, In (k, v) (arguments args) -> get k (cf_arg_types d) = Some t -> weigh sc t (plug vars v) <= u64_max) ->
  exists ns, Forall2 den (nonzero (base_cost d args) ++ input_exprs sc d args) ns /\
    total ns = (match cf_cost d with Some w => w | None => 0 end) + total (map (argument_weight sc vars d) (arguments args)).
Proof.
  intros B. destruct (nonzero_den _ _ (base_same d args)) as [ns1 [F1 E1]].
  destruct (inputs_den d args B) as [ns2 [F2 E2]]. exists (ns1 ++ ns2). split; [apply Forall2_app; assumption|].
  rewrite total_app, E1, E2. unfold argument_weight. rewrite total_add. lia.
Qed.

(** *** Overrides *)
Definition oden (p : list string * cexpr) (q : list string * N) : Prop := fst p = fst q /\ den (snd p) (snd q).
Lemma own_den name ov ps : Forall2 oden ov ps ->
  match own_override name ov, promised_here name ps with
  | Some e, Some n => den e n
  | None, None => True
  | _, _ => False
  end.
Proof.
  unfold own_override, promised_here. induction 1 as [|[p e] [q n] ov ps [E D] _ IH]; [exact I|]. cbn in E, D. subst q.
  cbn [find flat_map fst snd]. destruct p as [|x [|]]; try exact IH.
  destruct (String.eqb x name); [|exact IH]. exact D.
Qed.
Lemma child_den name ov ps : Forall2 oden ov ps -> Forall2 oden (child_overrides name ov) (promised_below name ps).
Proof.
  unfold child_overrides, promised_below. induction 1 as [|[p e] [q n] ov ps [E D] _ IH]; [constructor|]. cbn in E, D. subst q.
  cbn [flat_map fst snd]. apply Forall2_app; [|exact IH]. destruct p as [|x [|y r]]; try constructor.
  destruct (String.eqb x name); [|constructor]. constructor; [split; [reflexivity|exact D]|constructor].
Qed.

Lemma field_expr_den base ns size n tc children m : Forall2 den base ns ->
  match size with Some e => den e n | None => n = 1 end -> den children m ->
  den (field_expr base size tc children) (total ns + n * (tc + m)).
Proof.
  intros B Sz C. unfold field_expr.
  destruct (nonzero_den tc tc (same_refl tc)) as [n1 [F1 E1]]. destruct (unless_zero_den children m C) as [n2 [F2 E2]].
  assert (P : Forall2 den (nonzero tc ++ unless_zero children) (n1 ++ n2)) by (apply Forall2_app; assumption).
  assert (T : total (n1 ++ n2) = tc + m) by (rewrite total_app, E1, E2; reflexivity).
  destruct size as [e|].
  - replace (total ns + n * (tc + m)) with (total [total ns; n * (tc + m)]) by (cbn [total]; lia).
    apply add_nonzero_den. constructor; [apply add_nonzero_den; exact B|]. constructor; [|constructor].
    apply mul_den; [exact Sz|]. rewrite <- T. apply add_nonzero_den. exact P.
  - subst n. rewrite N.mul_1_l, <- T, <- total_app. apply add_nonzero_den. apply Forall2_app; assumption.
Qed.
Lemma entity_cost_ok sub :
  entity_type_cost sc sub = greatest (flat_map (fun x => match x with SFrag t _ _ _ => [type_weight sc t] | _ => [] end) sub).
Proof.
  unfold entity_type_cost. rewrite fold_max, N.max_0_l. apply (f_equal greatest).
  induction sub as [|x sub IH]; [reflexivity|]. cbn [flat_map]. rewrite IH. destruct x; reflexivity.
Qed.

(** ** Selections without spreads *)
Fixpoint spreadless (s : sel) : bool :=
  match s with
  | SField _ _ _ _ _ _ sub | SFrag _ _ _ sub => forallb spreadless sub
  | SSpread _ => false
  end.
Section Sels.
Context (spread : overrides -> string -> list cexpr).

Lemma flat_single (parent : string) ov ps (sub : list sel) :
  Forall (fun s => exists e, sel_expr sc dsize spread parent ov s = [e] /\ den e (cost sc dsize vars parent ps s)) sub ->
  den (add_nonzero (flat_map (sel_expr sc dsize spread parent ov) sub)) (total (map (cost sc dsize vars parent ps) sub)).
Proof.
  intros H. apply add_nonzero_den. induction H as [|s sub [e [E D]] _ IH]; [constructor|]. cbn [flat_map map]. rewrite E.
  constructor; assumption.
Qed.

Lemma sel_den s : forall parent ov ps, spreadless s = true -> Forall2 oden ov ps ->
  (forall v t, In (v, t) (inputs sc parent s) -> weigh sc t (plug vars v) <= u64_max) ->
  (Q -> well_sliced sc vars parent s = true) ->
  exists e, sel_expr sc dsize spread parent ov s = [e] /\ den e (cost sc dsize vars parent ps s).
Proof.
  induction s as [n a args inc skip om sub IH|t inc skip sub IH|n] using sel_ind'; intros parent ov ps SL O B W; [| |discriminate].
  - cbn [spreadless] in SL. cbn [sel_expr cost].
    destruct (String.eqb n "__typename") eqn:Et.
    { eexists. split; [reflexivity|]. rewrite orb_true_r.
      eapply den_same; [apply conditions_den, const_den|]. destruct (present vars inc skip); apply same_refl. }
    rewrite orb_false_r.
    assert (K : forall p ov' ps', Forall2 oden ov' ps' ->
              (forall v t, In (v, t) (flat_map (inputs sc p) sub) -> weigh sc t (plug vars v) <= u64_max) ->
              (Q -> forallb (well_sliced sc vars p) sub = true) ->
              den (add_nonzero (flat_map (sel_expr sc dsize spread p ov') sub)) (total (map (cost sc dsize vars p ps') sub))).
    { intros p ov' ps' O' B' W'. apply flat_single. rewrite forallb_forall in SL. rewrite Forall_forall in IH |- *.
      intros x Hx. apply IH; [exact Hx|apply SL; exact Hx|exact O'| |].
      - intros v t I'. apply B'. apply in_flat_map. exists x. auto.
      - intros q. specialize (W' q). rewrite forallb_forall in W'. apply W'. exact Hx. }
    cbn [inputs well_sliced] in B, W. destruct (String.eqb n "_entities") eqn:Ee.
    { eexists. split; [reflexivity|].
      match goal with |- den _ (if negb ?b then 0 else ?x) =>
        replace (if negb b then 0 else x) with (if b then x else 0) by (destruct b; reflexivity) end.
      apply conditions_den. unfold entities_expr. apply mul_den; [eapply den_same; [apply const_den|]; rewrite N.max_comm; apply same_refl|].
      rewrite entity_cost_ok. set (g := greatest _).
      assert (C : den (add_nonzero (flat_map (sel_expr sc dsize spread parent []) sub)) (total (map (cost sc dsize vars parent []) sub))).
      { apply K; [constructor|exact B|exact W]. }
      destruct (nonzero_den g g (same_refl g)) as [n1 [F1 E1]]. destruct (unless_zero_den _ _ C) as [n2 [F2 E2]].
      match goal with |- den _ ?x => replace x with (total (n1 ++ n2)) by (rewrite total_app, E1, E2; reflexivity) end. apply add_nonzero_den. apply Forall2_app; assumption. }
    unfold field_parts. rewrite declared_ok. pose proof (own_den n ov ps O) as Ow. pose proof (child_den n ov ps O) as Ch.
    destruct (declared sc parent n) as [d|].
    + assert (Bi : forall v t, In (v, t) (flat_map (inputs sc (named (cf_type d))) sub) -> weigh sc t (plug vars v) <= u64_max).
      { intros v t I'. apply B. apply in_or_app. right. exact I'. }
      assert (Ba : forall k v t, In (k, v) (arguments args) -> get k (cf_arg_types d) = Some t -> weigh sc t (plug vars v) <= u64_max).
      { intros k v t I' G. apply B. apply in_or_app. left. apply in_flat_map. exists (k, v). split; [exact I'|].
        cbn [fst snd]. rewrite G. left. reflexivity. }
      assert (Ws : Q -> match cf_list_size d with
          | Some ls => match ls_assumed ls, ls_slicing ls with
              | None, Some paths => negb (ls_require_one ls) || Nat.eqb (length (sizes vars paths (arguments args))) 1
              | _, _ => true end
          | None => true end = true).
      { intros q. apply W in q. apply andb_true_iff in q. apply q. }
      assert (Wc : Q -> forallb (well_sliced sc vars (named (cf_type d))) sub = true).
      { intros q. apply W in q. apply andb_true_iff in q. apply q. }
      clear B W. eexists. split; [reflexivity|].
      match goal with |- den _ (if negb ?b then 0 else ?x) =>
        replace (if negb b then 0 else x) with (if b then x else 0) by (destruct b; reflexivity) end.
      apply conditions_den. rewrite named_ok, type_weight_ok, is_list_ok.
      destruct (base_parts_den d args Ba) as [ns [F E]]. rewrite <- E. apply field_expr_den; [exact F| |].
      * unfold times. destruct (own_override n ov) as [e|], (promised_here n ps) as [m|]; try (destruct Ow; fail); [exact Ow|].
        destruct (cf_list_size d) as [ls|].
        -- destruct (ls_sized ls) as [pths|]; cbn [snd].
           ++ destruct (listlike (cf_type d)); [apply const_den|reflexivity].
           ++ destruct (listlike (cf_type d)); [apply size_expr_den; exact Ws|reflexivity].
        -- cbn [snd]. destruct (listlike (cf_type d)); [apply const_den|reflexivity].
      * apply K; [|exact Bi|exact Wc]. apply Forall2_app; [exact Ch|]. unfold promises_of.
        destruct (cf_list_size d) as [ls|]; [|constructor]. destruct (ls_sized ls) as [pths|]; [|constructor]. cbn [fst].
        clear - Ws. induction pths as [|p pths IHp]; [constructor|]. cbn [map]. constructor; [|exact IHp].
        split; [reflexivity|]. cbn [snd]. apply size_expr_den. exact Ws.
    + eexists. split; [reflexivity|].
      match goal with |- den _ (if negb ?b then 0 else ?x) =>
        replace (if negb b then 0 else x) with (if b then x else 0) by (destruct b; reflexivity) end.
      apply conditions_den. rewrite type_weight_ok.
      match goal with |- den _ ?x => replace x with (total [] + x) by reflexivity end.
      apply field_expr_den; [constructor| |].
      * destruct (own_override n ov) as [e|], (promised_here n ps) as [m|]; try (destruct Ow; fail); [exact Ow|reflexivity].
      * apply K; assumption.
  - cbn [spreadless] in SL. cbn [sel_expr cost]. eexists. split; [reflexivity|]. apply flat_single.
    rewrite forallb_forall in SL. rewrite Forall_forall in IH |- *. intros x Hx. apply IH; [exact Hx|apply SL; exact Hx|exact O| |].
    + intros v t' I'. apply B. cbn [inputs]. apply in_flat_map. exists x. auto.
    + intros q. specialize (W q). cbn [well_sliced] in W. rewrite forallb_forall in W. apply W. exact Hx.
Qed.
Lemma sels_den parent sels : forallb spreadless sels = true ->
  (forall v t, In (v, t) (flat_map (inputs sc parent) sels) -> weigh sc t (plug vars v) <= u64_max) ->
  (Q -> forallb (well_sliced sc vars parent) sels = true) ->
  den (set_expr sc dsize spread parent [] sels) (total (map (cost sc dsize vars parent []) sels)).
Proof.
  intros SL B W. apply flat_single. rewrite forallb_forall in SL. apply Forall_forall. intros x Hx.
  apply sel_den; [apply SL; exact Hx|constructor| |].
  - intros v t I'. apply B. apply in_flat_map. exists x. auto.
  - intros q. specialize (W q). rewrite forallb_forall in W. apply W. exact Hx.
Qed.
End Sels.

(** ** Spreads *)
Fixpoint nodes (s : sel) : nat :=
  match s with
  | SField _ _ _ _ _ _ sub | SFrag _ _ _ sub => S (list_sum (map nodes sub))
  | SSpread _ => 1
  end.
Definition all_nodes (l : list sel) : nat := list_sum (map nodes l).
Lemma all_nodes_field n a args i s o sub l : all_nodes (SField n a args i s o sub :: l) = S (all_nodes sub + all_nodes l).
Proof. reflexivity. Qed.
Lemma all_nodes_frag t i s sub l : all_nodes (SFrag t i s sub :: l) = S (all_nodes sub + all_nodes l).
Proof. reflexivity. Qed.

Context (frags : list frag) (U : NoDup (map fr_name frags)).
Lemma frag_unique f g : In f frags -> In g frags -> fr_name f = fr_name g -> f = g.
Proof.
  clear - U. induction frags as [|h l IH]; intros F G E; [destruct F|]. inversion U as [|? ? N U']; subst.
  destruct F as [->|F], G as [->|G]; auto.
  - exfalso. apply N. rewrite E. apply in_map. exact G.
  - exfalso. apply N. rewrite <- E. apply in_map. exact F.
Qed.
Lemma frag_found f : In f frags -> frag_named (fr_name f) frags = Some f.
Proof.
  intros F. unfold frag_named.
  destruct (find (fun g => String.eqb (fr_name g) (fr_name f)) (rev frags)) as [g|] eqn:E.
  - apply find_some in E. destruct E as [I' E]. apply String.eqb_eq in E. f_equal. apply frag_unique; auto. apply in_rev. exact I'.
  - exfalso.
    assert (K := find_none _ _ E f (proj1 (in_rev _ _) F)). cbn in K. rewrite String.eqb_refl in K. discriminate.
Qed.
Lemma inlined_unique l l1 : inlined frags l l1 -> forall l2, inlined frags l l2 -> l1 = l2.
Proof.
  induction 1 as [|n a args i s o sub sub' l l' _ IH1 _ IH2|t i s sub sub' l l' _ IH1 _ IH2|f sub' l l' F _ IH1 _ IH2]; intros l2 H2.
  - inversion H2. reflexivity.
  - inversion H2; subst.
    match goal with A : inlined frags sub ?x, B : inlined frags l ?y |- _ => rewrite (IH1 x A), (IH2 y B) end. reflexivity.
  - inversion H2; subst.
    match goal with A : inlined frags sub ?x, B : inlined frags l ?y |- _ => rewrite (IH1 x A), (IH2 y B) end. reflexivity.
  - inversion H2; subst. assert (f0 = f) by (apply frag_unique; auto). subst f0.
    match goal with A : inlined frags (fr_sels f) ?x, B : inlined frags l ?y |- _ => rewrite (IH1 x A), (IH2 y B) end. reflexivity.
Qed.
Lemma inlined_spreadless l l' : inlined frags l l' -> forallb spreadless l' = true.
Proof. induction 1; cbn; rewrite ?IHinlined1, ?IHinlined2; reflexivity. Qed.

(** The names being expanded: each stands for at least as much as is left to expand. *)
Definition pending (visited : list string) (l' : list sel) : Prop :=
  NoDup visited /\ forall n, In n visited -> exists f s, In f frags /\ fr_name f = n /\ inlined frags (fr_sels f) s /\ (all_nodes l' <= all_nodes s)%nat.
Lemma pending_part visited l l' : pending visited l -> (all_nodes l' <= all_nodes l)%nat -> pending visited l'.
Proof.
  intros [N P] L. split; [exact N|]. intros n I'. destruct (P n I') as [f [s [A [B [C D]]]]]. exists f, s.
  split; [exact A|]. split; [exact B|]. split; [exact C|]. lia.
Qed.
Context (Fe : Forall (fun f => forallb entities_inline (fr_sels f) = true) frags).
Lemma not_spread sub sub' : inlined frags sub sub' -> forallb (fun x => negb (is_spread x)) sub = true ->
  entity_type_cost sc sub' = entity_type_cost sc sub.
Proof.
  intros H E. unfold entity_type_cost. apply (f_equal (fun x => fold_left N.max x 0)).
  induction H; cbn in E; try discriminate; cbn [flat_map]; try (rewrite IHinlined2 by exact E); reflexivity.
Qed.
Lemma spread_inlined l l' : inlined frags l l' -> forall fuel visited parent ov spread',
  forallb entities_inline l = true -> pending visited l' -> (fuel + length visited = S (length frags))%nat ->
  flat_map (sel_expr sc dsize (spread_expr sc dsize fuel frags visited) parent ov) l =
  flat_map (sel_expr sc dsize spread' parent ov) l'.
Proof.
  induction 1 as [|n a args i s o sub sub' l l' H1 IH1 H2 IH2|t i s sub sub' l l' H1 IH1 H2 IH2|f sub' l l' F H1 IH1 H2 IH2];
    intros fuel visited parent ov spread' EI P L; [reflexivity| | |].
  - cbn [flat_map]. cbn [forallb entities_inline] in EI. apply andb_true_iff in EI. destruct EI as [E1 E2].
    apply andb_true_iff in E1. destruct E1 as [E0 E1].
    assert (P1 : pending visited sub') by (eapply pending_part; [exact P|]; rewrite ?all_nodes_field, ?all_nodes_frag; lia).
    assert (P2 : pending visited l') by (eapply pending_part; [exact P|]; rewrite ?all_nodes_field, ?all_nodes_frag; lia).
    f_equal; [|apply IH2; assumption]. cbn [sel_expr].
    destruct (String.eqb n "__typename"); [reflexivity|]. destruct (String.eqb n "_entities").
    + unfold entities_expr. rewrite (not_spread _ _ H1 E0).
      rewrite (IH1 fuel visited parent [] spread' E1 P1 L). reflexivity.
    + destruct (field_parts sc dsize parent n args (own_override n ov) (child_overrides n ov)) as [[[base ov'] size] rt].
      rewrite (IH1 fuel visited rt ov' spread' E1 P1 L). reflexivity.
  - cbn [flat_map]. cbn [forallb entities_inline] in EI. apply andb_true_iff in EI. destruct EI as [E1 E2].
    assert (P1 : pending visited sub') by (eapply pending_part; [exact P|]; rewrite ?all_nodes_field, ?all_nodes_frag; lia).
    assert (P2 : pending visited l') by (eapply pending_part; [exact P|]; rewrite ?all_nodes_field, ?all_nodes_frag; lia).
    f_equal; [|apply IH2; assumption]. cbn [sel_expr]. rewrite (IH1 fuel visited t ov spread' E1 P1 L). reflexivity.
  - cbn [flat_map]. cbn [forallb entities_inline] in EI.
    assert (P2 : pending visited l') by (eapply pending_part; [exact P|]; rewrite ?all_nodes_field, ?all_nodes_frag; lia).
    f_equal; [|apply IH2; assumption]. cbn [sel_expr].
    assert (Nv : ~ In (fr_name f) visited).
    { intros I'. destruct P as [_ P]. destruct (P _ I') as [g [s [G [E [S' Le]]]]].
      assert (g = f) by (apply frag_unique; auto). subst g. rewrite (inlined_unique _ _ S' _ H1) in Le.
      rewrite all_nodes_frag in Le. lia. }
    assert (Lv : (length visited < length frags)%nat).
    { destruct P as [Nd P]. assert (K : (length (fr_name f :: visited) <= length (map fr_name frags))%nat).
      { apply NoDup_incl_length; [constructor; assumption|]. intros n [<-|I'].
        - apply in_map. exact F.
        - destruct (P n I') as [g [s [G [<- _]]]]. apply in_map. exact G. }
      rewrite map_length in K. cbn in K. lia. }
    destruct fuel as [|fuel]; [lia|]. cbn [spread_expr].
    replace (existsb (String.eqb (fr_name f)) visited) with false.
    2:{ symmetry. apply not_true_iff_false. intros K. apply existsb_exists in K. destruct K as [x [Hx K]].
        apply String.eqb_eq in K. subst x. contradiction. }
    rewrite (frag_found f F). unfold set_expr.
    rewrite (IH1 fuel (fr_name f :: visited) (fr_type f) ov spread'); [reflexivity| | |].
    + rewrite Forall_forall in Fe. apply Fe. exact F.
    + split; [constructor; [exact Nv|apply P]|]. intros n [<-|I'].
      * exists f, sub'. split; [exact F|]. split; [reflexivity|]. split; [exact H1|]. lia.
      * destruct P as [_ P]. destruct (P n I') as [g [s [A [B [C D]]]]]. exists g, s.
        split; [exact A|]. split; [exact B|]. split; [exact C|]. rewrite all_nodes_frag in D. lia.
    + cbn [length]. lia.
Qed.

(** ** Operations *)
Lemma operation_den kind root sels sels' : forallb entities_inline sels = true -> inlined frags sels sels' ->
  (forall v t, In (v, t) (flat_map (inputs sc root) sels') -> weigh sc t (plug vars v) <= u64_max) ->
  (Q -> forallb (well_sliced sc vars root) sels' = true) ->
  den (operation_expr sc dsize kind frags root sels) (operation_cost sc dsize vars kind root sels').
Proof.
  intros EI In' B W. unfold operation_expr, operation_cost.
  assert (D : den (set_expr sc dsize (spread_expr sc dsize (S (length frags)) frags []) root [] sels)
                  (total (map (cost sc dsize vars root []) sels'))).
  { unfold set_expr. rewrite (spread_inlined _ _ In' (S (length frags)) [] root [] (fun _ _ => []) EI).
    - apply (sels_den (fun _ _ => [])); [eapply inlined_spreadless; exact In'|exact B|exact W].
    - split; [constructor|]. intros n [].
    - cbn. lia. }
  destruct kind as [[]|]; try exact D.
  match goal with |- den _ (10 + ?x) => replace (10 + x) with (total [10; x]) by (cbn [total]; lia) end.
  apply add_nonzero_den. constructor; [apply const_den|]. constructor; [exact D|constructor].
Qed.
End D.
