From Coq Require Import String List Bool NArith ZArith Lia.
From Verif Require Import StrOrd Ast JsonModel MergeModel TraverseModel RewriteModel RequiresModel EntityModel
  ExecModel ExecSpec CondModel CostModel CostSpec CostProofs CostExpr CostPlan.
Import ListNotations.
Local Open Scope N_scope.
Local Open Scope string_scope.
Local Open Scope list_scope.

Scheme grows_min := Minimality for grows Sort Prop
  with members_min := Minimality for grows_members Sort Prop
  with fields_min := Minimality for grows_fields Sort Prop.
Combined Scheme grows_all from grows_min, members_min, fields_min.

Lemma total_le l l' : Forall2 N.le l l' -> total l <= total l'.
Proof. induction 1; cbn [total]; lia. Qed.
Lemma greatest_le l l' : Forall2 N.le l l' -> greatest l <= greatest l'.
Proof. induction 1; cbn [greatest]; lia. Qed.
Lemma forall2_map2 {A B} (R : B -> B -> Prop) (f g : A -> B) l : Forall (fun x => R (f x) (g x)) l -> Forall2 R (map f l) (map g l).
Proof. induction 1; constructor; assumption. Qed.

Section M.
Context (sc : cschema).
Definition weigh_fields (fs : list (string * (option N * tnode))) : list (string * value) -> N :=
  fix each (o : list (string * value)) : N :=
    match o with
    | [] => 0
    | (k, x) :: o' =>
        match get k fs with
        | Some (w, t') => (match w with Some n => n | None => 0 end) + weigh sc t' x
        | None => 0
        end + each o'
    end.
Lemma weigh_grows :
  (forall v w, grows v w -> forall t, weigh sc t v <= weigh sc t w) /\
  (forall l l', grows_members l l' -> forall t, total (map (weigh sc t) l) <= total (map (weigh sc t) l')) /\
  (forall o o', grows_fields o o' -> forall fs, weigh_fields fs o <= weigh_fields fs o').
Proof.
  apply grows_all.
  - intros v t. lia.
  - intros v w m n Hv Hw _ t. destruct v; try discriminate Hv; cbn; lia.
  - intros l l' _ IH t. cbn [weigh]. destruct (strip t); try lia. apply IH.
  - intros o o' _ IH t. cbn [weigh]. destruct (strip t) as [n| |]; try lia. destruct (get n sc) as [d|]; [|lia].
    destruct d; try lia. apply N.add_le_mono_l. apply IH.
  - intros l t. cbn [map total]. lia.
  - intros v w l l' _ IH _ IHl t. cbn [map total]. specialize (IH t). specialize (IHl t). lia.
  - intros fs. lia.
  - intros k v w o o' _ IH _ IHo fs. cbn [weigh_fields]. specialize (IHo fs). destruct (get k fs) as [[x t']|]; [specialize (IH t')|]; lia.
Qed.
Lemma fields_get k o o' : grows_fields o o' ->
  match get k o with Some v => exists w, get k o' = Some w /\ grows v w | None => get k o' = None end.
Proof.
  induction 1 as [|k' v w o o' G _ IH]; [reflexivity|]. cbn [get]. destruct (String.eqb k k'); [eauto|exact IH].
Qed.
Lemma at_keys_grows p : forall v w, grows v w ->
  match at_keys p v with Some x => exists y, at_keys p w = Some y /\ grows x y | None => at_keys p w = None end.
Proof.
  induction p as [|k p IH]; intros v w G; [cbn; eauto|]. inversion G; subst.
  - destruct (at_keys (k :: p) w) as [x|]; [|reflexivity]. exists x. split; [reflexivity|constructor].
  - destruct v; try discriminate; destruct w; try discriminate; reflexivity.
  - reflexivity.
  - cbn [at_keys]. match goal with F : grows_fields ?a ?b |- _ => pose proof (fields_get k a b F) as K; destruct (get k a) as [x|] end.
    + destruct K as [y [-> Gy]]. apply IH. exact Gy.
    + rewrite K. reflexivity.
Qed.
Lemma members_length l l' : grows_members l l' -> (length l <= length l')%nat.
Proof. induction 1; cbn; lia. Qed.
Lemma count_grows v w : grows v w ->
  match count v with Some m => exists n, count w = Some n /\ m <= n | None => count w = None end.
Proof.
  intros G. inversion G; subst.
  - destruct (count w); [eexists; split; [reflexivity|lia]|reflexivity].
  - destruct v; try discriminate; destruct w; try discriminate; cbn in *;
      (eexists; split; [reflexivity|]); match goal with A : Some _ = Some ?m, B : Some _ = Some ?n |- _ => injection A as <-; injection B as <-; assumption end.
  - cbn. eexists. split; [reflexivity|]. match goal with F : grows_members _ _ |- _ => apply members_length in F; lia end.
  - reflexivity.
Qed.

Section V.
Context (vars vars' : option (list (string * value))) (Gr : grown vars vars').
Lemma var_grows n : grows (var vars n) (var vars' n).
Proof.
  unfold var. destruct vars as [vs|], vars' as [vs'|]; cbn in Gr; try contradiction; [|constructor].
  pose proof (fields_get n vs vs' Gr) as K. destruct (get n vs) as [v|].
  - destruct K as [w [-> G]]. exact G.
  - rewrite K. constructor.
Qed.
Lemma plug_grows v : grows (plug vars v) (plug vars' v).
Proof.
  induction v as [n|z|b|s|b| |s|l IH|o IH] using gvalue_ind'; cbn [plug]; try constructor.
  - apply var_grows.
  - induction IH; constructor; assumption.
  - induction IH as [|[k x] o Hx _ IHo]; constructor; assumption.
Qed.
Lemma holds_grows n : holds vars n = holds vars' n.
Proof.
  unfold holds. pose proof (var_grows n) as G. inversion G; subst; try congruence; try reflexivity.
  destruct (var vars n); try discriminate; destruct (var vars' n); try discriminate; reflexivity.
Qed.
Lemma present_grows i s : present vars i s = present vars' i s.
Proof. unfold present. destruct i, s; rewrite ?holds_grows; reflexivity. Qed.
Lemma size_given_grows v p : Forall2 N.le (size_given vars v p) (size_given vars' v p).
Proof.
  unfold size_given. pose proof (at_keys_grows p _ _ (plug_grows v)) as K. destruct (at_keys p (plug vars v)) as [x|].
  - destruct K as [y [-> G]]. pose proof (count_grows x y G) as C. destruct (count x) as [m|].
    + destruct C as [n [-> L]]. constructor; [exact L|constructor].
    + rewrite C. constructor.
  - rewrite K. constructor.
Qed.
Lemma forall2_app {A B} (R : A -> B -> Prop) a b c d : Forall2 R a c -> Forall2 R b d -> Forall2 R (a ++ b) (c ++ d).
Proof. induction 1; cbn; [trivial|]. intros H'. constructor; auto. Qed.
Lemma sizes_grows ps args : Forall2 N.le (sizes vars ps args) (sizes vars' ps args).
Proof.
  unfold sizes. induction ps as [|p ps IH]; [constructor|]. cbn [flat_map]. apply forall2_app; [|exact IH].
  destruct (get (fst p) args); [apply size_given_grows|constructor].
Qed.
Context (dsize : N).
Lemma promised_grows ls args : promised dsize vars ls args <= promised dsize vars' ls args.
Proof.
  unfold promised. destruct (ls_assumed ls); [lia|]. destruct (ls_slicing ls) as [ps|]; [|lia].
  pose proof (sizes_grows ps (arguments args)) as K. inversion K as [E1 E2|x y l l' H1 H2 E1 E2]; [lia|].
  apply greatest_le. constructor; assumption.
Qed.
Definition promise_le (p q : list string * N) : Prop := fst p = fst q /\ snd p <= snd q.
Lemma promised_here_grows n ps ps' : Forall2 promise_le ps ps' ->
  match promised_here n ps with Some x => exists y, promised_here n ps' = Some y /\ x <= y | None => promised_here n ps' = None end.
Proof.
  intros H. unfold promised_here.
  assert (K : Forall2 N.le (flat_map (fun p => match fst p with [x] => if String.eqb x n then [snd p] else [] | _ => [] end) ps)
                           (flat_map (fun p => match fst p with [x] => if String.eqb x n then [snd p] else [] | _ => [] end) ps')).
  { induction H as [|[p a] [q b] ps ps' [E L] _ IH]; [constructor|]. cbn [flat_map fst snd] in *. subst q. apply forall2_app; [|exact IH].
    destruct p as [|x [|y r]]; try constructor. destruct (String.eqb x n); repeat constructor; assumption. }
  inversion K; [reflexivity|]. eauto.
Qed.
Lemma promised_below_grows n ps ps' : Forall2 promise_le ps ps' -> Forall2 promise_le (promised_below n ps) (promised_below n ps').
Proof.
  intros H. unfold promised_below. induction H as [|[p a] [q b] ps ps' [E L] _ IH]; [constructor|]. cbn [flat_map fst snd] in *. subst q.
  apply forall2_app; [|exact IH]. destruct p as [|x [|y r]]; try constructor. destruct (String.eqb x n); repeat constructor; assumption.
Qed.
Lemma promises_of_grows d args : Forall2 promise_le (promises_of dsize vars d args) (promises_of dsize vars' d args).
Proof.
  unfold promises_of. destruct (cf_list_size d) as [ls|]; [|constructor]. destruct (ls_sized ls) as [ps|]; [|constructor].
  apply forall2_map2. apply Forall_forall. intros p _. split; [reflexivity|apply promised_grows].
Qed.
Lemma times_grows d n args ps ps' : Forall2 promise_le ps ps' -> times dsize vars d n args ps <= times dsize vars' d n args ps'.
Proof.
  intros H. unfold times. pose proof (promised_here_grows n ps ps' H) as K. destruct (promised_here n ps) as [x|].
  - destruct K as [y [-> L]]. exact L.
  - rewrite K. destruct (listlike (cf_type d)); [|lia]. destruct (cf_list_size d) as [ls|]; [|lia].
    destruct (ls_sized ls); [lia|]. apply promised_grows.
Qed.
Lemma argument_grows d kv : argument_weight sc vars d kv <= argument_weight sc vars' d kv.
Proof.
  unfold argument_weight. destruct (get (fst kv) (cf_arg_types d)) as [t|]; [|lia].
  pose proof (proj1 weigh_grows _ _ (plug_grows (snd kv)) t). lia.
Qed.
Lemma cost_grows s : forall parent ps ps', Forall2 promise_le ps ps' ->
  cost sc dsize vars parent ps s <= cost sc dsize vars' parent ps' s.
Proof.
  induction s as [n a args inc skip om sub IH|t inc skip sub IH|n] using sel_ind'; intros parent ps ps' H; cbn [cost].
  - rewrite present_grows. destruct (negb (present vars' inc skip) || String.eqb n "__typename"); [lia|].
    assert (Sub : forall parent ps ps', Forall2 promise_le ps ps' ->
              total (map (cost sc dsize vars parent ps) sub) <= total (map (cost sc dsize vars' parent ps') sub)).
    { intros q ps1 ps2 H'. apply total_le. apply forall2_map2. eapply Forall_impl; [|exact IH]. intros x Hx. apply Hx. exact H'. }
    destruct (String.eqb n "_entities").
    + apply N.mul_le_mono_l. specialize (Sub parent [] [] (Forall2_nil _)). lia.
    + destruct (declared sc parent n) as [d|].
      * assert (A : total (map (argument_weight sc vars d) (arguments args)) <= total (map (argument_weight sc vars' d) (arguments args))).
        { apply total_le. apply forall2_map2. apply Forall_forall. intros kv _. apply argument_grows. }
        pose proof (times_grows d n args ps ps' H) as T.
        pose proof (Sub (named (cf_type d)) _ _ (forall2_app _ _ _ _ _ (promised_below_grows n ps ps' H) (promises_of_grows d args))) as B.
        apply N.add_le_mono; [lia|]. apply N.mul_le_mono; [exact T|]. lia.
      * pose proof (Sub parent _ _ (promised_below_grows n ps ps' H)) as B. apply N.mul_le_mono; [|lia].
        pose proof (promised_here_grows n ps ps' H) as K. destruct (promised_here n ps) as [x|].
        -- destruct K as [y [-> L]]. exact L.
        -- rewrite K. lia.
  - apply total_le. apply forall2_map2. eapply Forall_impl; [|exact IH]. intros x Hx. apply Hx. exact H.
  - lia.
Qed.
Lemma operation_cost_grows kind root sels :
  operation_cost sc dsize vars kind root sels <= operation_cost sc dsize vars' kind root sels.
Proof.
  unfold operation_cost. apply N.add_le_mono_l. apply total_le. apply forall2_map2. apply Forall_forall. intros s _. apply cost_grows. constructor.
Qed.
Lemma billed_grows n : billed vars n = billed vars' n.
Proof.
  assert (Many : forall l, Forall (fun n => billed vars n = billed vars' n) l -> flat_map (billed vars) l = flat_map (billed vars') l).
  { induction 1 as [|x l E _ IH]; [reflexivity|]. cbn [flat_map]. rewrite E, IH. reflexivity. }
  induction n as [f|b|p n IH|l IH|l IH|v i e IHi IHe|f|p ds IHp IHd] using cnode_ind'; cbn [billed]; auto.
  - rewrite holds_grows. destruct (holds vars' v); [destruct i|destruct e]; auto.
  - f_equal; [destruct p; auto|]. induction IHd as [|d ds E _ IH]; [reflexivity|]. cbn [flat_map]. rewrite IH. f_equal. destruct d; auto.
Qed.
End V.
Lemma nodup_map_inj {A B} (f : A -> B) l x y : NoDup (map f l) -> In x l -> In y l -> f x = f y -> x = y.
Proof.
  induction l as [|z l IH]; intros N Hx Hy E; [destruct Hx|]. cbn [map] in N. inversion N as [|? ? Hz N']; subst.
  destruct Hx as [->|Hx], Hy as [->|Hy]; [reflexivity| | |auto].
  - exfalso. apply Hz. rewrite E. apply in_map. exact Hy.
  - exfalso. apply Hz. rewrite <- E. apply in_map. exact Hx.
Qed.
Lemma inlined_det frags l a : NoDup (map fr_name frags) -> inlined frags l a -> forall b, inlined frags l b -> a = b.
Proof.
  intros N. induction 1 as [|n al args i s o sub sub' l l' _ IH1 _ IH2|t i s sub sub' l l' _ IH1 _ IH2|f sub' l l' Hf _ IH1 _ IH2];
    intros b Hb; inversion Hb; subst; try reflexivity.
  - f_equal; [f_equal|]; auto.
  - f_equal; [f_equal|]; auto.
  - match goal with A : fr_name ?g = fr_name f, B : In ?g frags |- _ => assert (g = f) end.
    { eapply nodup_map_inj; eassumption. }
    subst. f_equal; [f_equal|]; auto.
Qed.
Section P.
Context (cfg : dc_config) (document : nat -> option opkind * list frag * list sel) (root_type : option opkind -> string).
Lemma bill_grows vars vars' : grown vars vars' -> forall l bill bill',
  Forall2 (costs sc cfg document root_type vars) l bill -> Forall2 (costs sc cfg document root_type vars') l bill' ->
  Forall2 (fun a b => fst a = fst b /\ snd a <= snd b) bill bill'.
Proof.
  intros Gr l bill bill' H. revert bill'. induction H as [|x y l bill C _ IH]; intros bill' H'; inversion H' as [|? y' ? b' C' H2]; subst; constructor.
  - inversion C as [s id k fr se se' D U E F In' Sm]; subst. inversion C' as [s2 id2 k2 fr2 se2 se2' D2 U2 E2 F2 In2 Sm2]; subst. cbn [fst snd].
    rewrite D in D2. injection D2 as <- <- <-. split; [reflexivity|].
    rewrite (inlined_det _ _ _ U In2 _ In'). apply operation_cost_grows. exact Gr.
  - apply IH. exact H2.
Qed.
Lemma evaluation_grows vars vars' n bill bill' ev ev' : grown vars vars' ->
  Forall2 (costs sc cfg document root_type vars) (billed vars n) bill ->
  Forall2 (costs sc cfg document root_type vars') (billed vars' n) bill' ->
  evaluate sc vars (formula sc cfg document root_type n) = COk ev ->
  evaluate sc vars' (formula sc cfg document root_type n) = COk ev' ->
  ev_total ev <= ev_total ev'.
Proof.
  intros Gr C C' E E'. destruct (estimate sc cfg document root_type vars False n bill C (fun q => match q with end)) as [B _].
  destruct (estimate sc cfg document root_type vars' False n bill' C' (fun q => match q with end)) as [B' _].
  destruct (B ev E) as [T _]. destruct (B' ev' E') as [T' _]. rewrite T, T'. rewrite <- (billed_grows vars vars' Gr) in C'.
  apply N.min_le_compat_l. apply total_le. pose proof (bill_grows vars vars' Gr _ _ _ C C') as H.
  clear - H. induction H as [|a b l l' [_ L] _ IH]; constructor; assumption.
Qed.
End P.
End M.
