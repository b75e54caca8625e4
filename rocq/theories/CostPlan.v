From Coq Require Import String List Bool NArith ZArith Lia Permutation.
From Verif Require Import StrOrd Ast JsonModel MergeModel TraverseModel RewriteModel RequiresModel EntityModel
  ExecModel ExecSpec ExecRun ExecErrors CondModel CostModel CostSpec CostProofs CostExpr.
Import ListNotations.
Local Open Scope N_scope.
Local Open Scope string_scope.
Local Open Scope list_scope.

Definition opt_all (P : cnode -> Prop) (o : option cnode) : Prop := match o with Some n => P n | None => True end.
Section Ind.
  Variable P : cnode -> Prop.
  Hypothesis Hf : forall f, P (PFetch f).
  Hypothesis Hb : forall b, P (PBatch b).
  Hypothesis Hl : forall p n, P n -> P (PFlatten p n).
  Hypothesis Hs : forall l, Forall P l -> P (PSequence l).
  Hypothesis Hp : forall l, Forall P l -> P (PParallel l).
  Hypothesis Hc : forall v i e, opt_all P i -> opt_all P e -> P (PCondition v i e).
  Hypothesis Hu : forall f, P (PSubscription f).
  Hypothesis Hd : forall p ds, opt_all P p -> Forall (opt_all P) ds -> P (PDefer p ds).
  Fixpoint cnode_ind' (n : cnode) : P n :=
    let all := fix all (l : list cnode) : Forall P l :=
                 match l with
                 | [] => Forall_nil P
                 | x :: l' => Forall_cons x (cnode_ind' x) (all l')
                 end in
    let opt := fun o : option cnode => match o return opt_all P o with Some n' => cnode_ind' n' | None => I end in
    match n with
    | PFetch f => Hf f
    | PBatch b => Hb b
    | PFlatten p n' => Hl p n' (cnode_ind' n')
    | PSequence l => Hs l (all l)
    | PParallel l => Hp l (all l)
    | PCondition v i e => Hc v i e (opt i) (opt e)
    | PSubscription f => Hu f
    | PDefer p ds => Hd p ds (opt p)
        ((fix all (l : list (option cnode)) : Forall (opt_all P) l :=
            match l with
            | [] => Forall_nil _
            | x :: l' => Forall_cons x (match x return opt_all P x with Some n' => cnode_ind' n' | None => I end) (all l')
            end) ds)
    end.
End Ind.

Lemma charge_get s s' c l : get s (charge s' c l) =
  if String.eqb s s' then Some (match get s l with Some x => sat_add x c | None => c end) else get s l.
Proof.
  induction l as [|[k x] l IH]; cbn [charge get]; change str_eqb with String.eqb.
  - destruct (String.eqb s s'); reflexivity.
  - destruct (String.eqb s' k) eqn:E.
    + apply String.eqb_eq in E. subst k. cbn [get]. change str_eqb with String.eqb. destruct (String.eqb s s'); reflexivity.
    + cbn [get]. change str_eqb with String.eqb. rewrite IH. destruct (String.eqb s k) eqn:E2; [|reflexivity].
      apply String.eqb_eq in E2. subst k. rewrite String.eqb_sym, E. reflexivity.
Qed.
Lemma charge_nodup s c l : NoDup (map fst l) -> NoDup (map fst (charge s c l)).
Proof.
  induction l as [|[k x] l IH]; intros N; cbn [charge map fst].
  - constructor; [intros []|constructor].
  - inversion N as [|? ? Hk N']; subst. destruct (String.eqb s k) eqn:E; [exact N|]. cbn [map fst]. constructor; [|apply IH; exact N'].
    assert (G : get k (charge s c l) = None).
    { rewrite charge_get, String.eqb_sym, E. apply get_none_notin. exact Hk. }
    apply get_none_notin. exact G.
Qed.

Section R.
Context (sc : cschema) (cfg : dc_config) (document : nat -> option opkind * list frag * list sel)
        (root_type : option opkind -> string).
Section V.
Context (vars : option (list (string * value))) (Q : Prop).

(** The evaluation says what the bill says. *)
Definition books (ev : evaluation) (bill : list (string * N)) : Prop :=
  ev_total ev = N.min u64_max (total (map snd bill)) /\ NoDup (map fst (ev_subgraphs ev)) /\
  forall s, match get s (ev_subgraphs ev) with
            | Some c => for_service s bill <> [] /\ same_u64 c (total (for_service s bill))
            | None => for_service s bill = []
            end.
Lemma for_service_app s a b : for_service s (a ++ b) = for_service s a ++ for_service s b.
Proof. apply flat_map_app. Qed.
Lemma books_charge ev bill s c n : books ev bill -> same_u64 c n ->
  books (mkev (sat_add (ev_total ev) c) (charge s c (ev_subgraphs ev))) (bill ++ [(s, n)]).
Proof.
  intros [T [Nd G]] S. split; [|split]; cbn [ev_total ev_subgraphs].
  - rewrite map_app, total_app. cbn [map snd total]. rewrite N.add_0_r. rewrite T. unfold sat_add, sat. unfold same_u64, u64_max in *. lia.
  - apply charge_nodup. exact Nd.
  - intros s'. rewrite charge_get, for_service_app. specialize (G s'). cbn [for_service flat_map fst snd]. rewrite String.eqb_sym.
    destruct (String.eqb s s'); cbn [app].
    + split; [destruct (for_service s' bill); discriminate|]. rewrite total_app. cbn [total]. rewrite N.add_0_r.
      destruct (get s' (ev_subgraphs ev)) as [x|]; [apply same_sat_add; [apply G|exact S]|].
      rewrite G. exact S.
    + rewrite app_nil_r. exact G.
Qed.

Definition assess (n : fnode) (bill : list (string * N)) : Prop :=
  forall ev b, books ev b ->
  (forall ev', evaluate_node sc vars n ev = COk ev' -> books ev' (b ++ bill)) /\
  (Q -> exists ev', evaluate_node sc vars n ev = COk ev').

Lemma default_size_ok s : default_size cfg s = assumed_size cfg s.
Proof.
  unfold default_size, assumed_size, or_zero. destruct (dc_size_subgraphs cfg) as [l|]; [|reflexivity].
  destruct (get s l); reflexivity.
Qed.
Lemma fetch_assess s id n : costs sc cfg document root_type vars (s, id) (s, n) -> (Q -> sliced sc document root_type vars id) ->
  assess (FFetch s (fetch_expr sc cfg document root_type s id)) [(s, n)].
Proof.
  intros C W ev b B. inversion C as [? ? kind frags sels sels' D U E F In' Sm]; subst.
  cbn [evaluate_node]. unfold fetch_expr. rewrite D.
  assert (K : den sc vars Q (operation_expr sc (default_size cfg s) kind frags (root_type kind) sels)
                (operation_cost sc (assumed_size cfg s) vars kind (root_type kind) sels')).
  { rewrite default_size_ok. apply operation_den; try assumption. intros q. apply (W q kind frags sels sels' D In'). }
  destruct K as [K1 K2]. split.
  - intros ev' H. destruct (eval sc vars _) as [c|]; [|discriminate]. cbn in H. injection H as <-.
    apply books_charge; [exact B|]. apply K1. reflexivity.
  - intros q. destruct (K2 q) as [c ->]. cbn. eauto.
Qed.

Definition evaluate_all : list fnode -> evaluation -> cres evaluation :=
  fix all (l : list fnode) (ev : evaluation) : cres evaluation :=
    match l with [] => COk ev | x :: l' => cbind (evaluate_node sc vars x ev) (all l') end.
Lemma aggregate_assess l bills : Forall2 assess l bills -> assess (FAggregate l) (concat bills).
Proof.
  intros H ev b. change (evaluate_node sc vars (FAggregate l) ev) with (evaluate_all l ev). revert ev b.
  induction H as [|x bx l bills Hx _ IH]; intros ev b B.
  - cbn [concat evaluate_all]. split; [|eauto]. intros ev' E. injection E as <-. rewrite app_nil_r. exact B.
  - cbn [concat]. change (evaluate_all (x :: l) ev) with (cbind (evaluate_node sc vars x ev) (evaluate_all l)).
    destruct (Hx ev b B) as [H1 H2]. split.
    + intros ev' E. destruct (evaluate_node sc vars x ev) as [ev1|]; [|discriminate]. cbn [cbind] in E.
      destruct (IH ev1 (b ++ bx) (H1 _ eq_refl)) as [I1 _]. rewrite app_assoc. apply I1. exact E.
    + intros q. destruct (H2 q) as [ev1 E1]. rewrite E1. cbn [cbind].
      destruct (IH ev1 (b ++ bx) (H1 _ E1)) as [_ I2]. auto.
Qed.
Lemma forall2_flat {A B C} (R : B -> C -> Prop) (f : A -> list B) l bill : Forall2 R (flat_map f l) bill ->
  exists bills, bill = concat bills /\ Forall2 (fun x b => Forall2 R (f x) b) l bills.
Proof.
  revert bill. induction l as [|x l IH]; intros bill H; cbn [flat_map] in H.
  - inversion H; subst. exists []. split; [reflexivity|constructor].
  - apply Forall2_app_inv_l in H. destruct H as [b1 [b2 [H1 [H2 ->]]]]. destruct (IH b2 H2) as [bs [-> F]].
    exists (b1 :: bs). split; [reflexivity|constructor; assumption].
Qed.
Lemma forall2_map_l {A B C} (R : B -> C -> Prop) (f : A -> B) l c : Forall2 (fun x => R (f x)) l c -> Forall2 R (map f l) c.
Proof. induction 1; constructor; assumption. Qed.
Lemma costs_service p q : costs sc cfg document root_type vars p q -> fst q = fst p.
Proof. intros C. inversion C; reflexivity. Qed.

Lemma plan_assess n : forall bill, Forall2 (costs sc cfg document root_type vars) (billed vars n) bill ->
  (Q -> forall s id, In (s, id) (billed vars n) -> sliced sc document root_type vars id) ->
  assess (formula sc cfg document root_type n) bill.
Proof.
  assert (Single : forall s id bill, Forall2 (costs sc cfg document root_type vars) [(s, id)] bill ->
            (Q -> forall s' id', In (s', id') [(s, id)] -> sliced sc document root_type vars id') ->
            assess (FFetch s (fetch_expr sc cfg document root_type s id)) bill).
  { intros s id bill H W. inversion H as [|? [s' m] ? ? C N]; subst. inversion N; subst.
    pose proof (costs_service _ _ C) as E. cbn in E. subst s'. apply fetch_assess; [exact C|].
    intros q. apply (W q s id). left. reflexivity. }
  assert (Many : forall l, Forall (fun n => forall bill, Forall2 (costs sc cfg document root_type vars) (billed vars n) bill ->
                (Q -> forall s id, In (s, id) (billed vars n) -> sliced sc document root_type vars id) ->
                assess (formula sc cfg document root_type n) bill) l ->
            forall bill, Forall2 (costs sc cfg document root_type vars) (flat_map (billed vars) l) bill ->
            (Q -> forall s id, In (s, id) (flat_map (billed vars) l) -> sliced sc document root_type vars id) ->
            assess (FAggregate (map (formula sc cfg document root_type) l)) bill).
  { intros l IH bill H W. apply forall2_flat in H. destruct H as [bills [-> F]]. apply aggregate_assess. apply forall2_map_l.
    induction F as [|x b l bills Hx F IHF]; [constructor|]. inversion IH; subst. constructor.
    - apply H1; [exact Hx|]. intros q s id Hin. apply (W q s id). cbn [flat_map]. apply in_or_app. left. exact Hin.
    - apply IHF; [assumption|]. intros q s id Hin. apply (W q s id). cbn [flat_map]. apply in_or_app. right. exact Hin. }
  assert (Nothing : forall bill, Forall2 (costs sc cfg document root_type vars) [] bill -> bill = []).
  { intros bill H. inversion H. reflexivity. }
  induction n as [f|b|p n IH|l IH|l IH|v i e IHi IHe|f|p ds IHp IHd] using cnode_ind'; intros bill H W.
  - apply Single; assumption.
  - apply Single; assumption.
  - apply IH; assumption.
  - apply Many; assumption.
  - apply Many; assumption.
  - cbn [formula billed] in *. intros ev b B. cbn [evaluate_node]. rewrite holds_ok.
    assert (Idle : bill = [] -> (forall ev', COk ev = COk ev' -> books ev' (b ++ bill)) /\ (Q -> exists ev', COk ev = COk ev')).
    { intros ->. split; [|eauto]. intros ev' E. injection E as <-. rewrite app_nil_r. exact B. }
    destruct (holds vars v).
    + destruct i as [n|]; [apply IHi; assumption|]. apply Idle, Nothing, H.
    + destruct e as [n|]; [apply IHe; assumption|]. apply Idle, Nothing, H.
  - apply Single; assumption.
  - cbn [formula billed] in *. set (opt := fun d : option cnode => match d with Some n' => [n'] | None => [] end).
    assert (E : (match p with Some n' => [formula sc cfg document root_type n'] | None => [] end)
                ++ flat_map (fun d => match d with Some n' => [formula sc cfg document root_type n'] | None => [] end) ds
                = map (formula sc cfg document root_type) (flat_map opt (p :: ds))).
    { cbn [flat_map]. rewrite map_app. f_equal; [destruct p; reflexivity|]. clear. induction ds as [|d ds IH]; [reflexivity|].
      cbn [flat_map]. rewrite IH, map_app. destruct d; reflexivity. }
    rewrite E. clear E.
    assert (E : (match p with Some n' => billed vars n' | None => [] end)
                ++ flat_map (fun d => match d with Some n' => billed vars n' | None => [] end) ds
                = flat_map (billed vars) (flat_map opt (p :: ds))).
    { cbn [flat_map]. rewrite flat_map_app. f_equal; [destruct p; cbn; rewrite ?app_nil_r; reflexivity|]. clear.
      induction ds as [|d ds IH]; [reflexivity|]. cbn [flat_map]. rewrite IH, flat_map_app. destruct d; cbn; rewrite ?app_nil_r; reflexivity. }
    rewrite E in *. apply Many; [|exact H|exact W].
    apply Forall_forall. intros n Hn. apply in_flat_map in Hn. destruct Hn as [d [Hd Hn]]. rewrite Forall_forall in IHd.
    destruct d as [n'|]; [|destruct Hn]. destruct Hn as [<-|[]]. destruct Hd as [->|Hd]; [exact IHp|]. exact (IHd _ Hd).
Qed.

Lemma books_nil : books (mkev 0 []) [].
Proof. split; [reflexivity|]. split; [constructor|]. intros s. reflexivity. Qed.
Lemma estimate n bill : Forall2 (costs sc cfg document root_type vars) (billed vars n) bill ->
  (Q -> forall s id, In (s, id) (billed vars n) -> sliced sc document root_type vars id) ->
  (forall ev, evaluate sc vars (formula sc cfg document root_type n) = COk ev -> books ev bill) /\
  (Q -> exists ev, evaluate sc vars (formula sc cfg document root_type n) = COk ev).
Proof. intros H W. exact (plan_assess n bill H W (mkev 0 []) [] books_nil). Qed.
End V.

(** ** Budgets *)
Lemma budget_ok s : budget cfg s = limit cfg s.
Proof. unfold budget, limit. destruct (dc_budget_subgraphs cfg) as [l|]; [|reflexivity]. destruct (get s l); reflexivity. Qed.
Lemma blocked_get ev s : NoDup (map fst (ev_subgraphs ev)) ->
  get s (blocked cfg ev) = match get s (ev_subgraphs ev), limit cfg s with
                           | Some c, Some m => if N.ltb m c then Some m else None
                           | _, _ => None
                           end.
Proof.
  unfold blocked. destruct ev as [t l]. cbn [ev_subgraphs]. induction l as [|[k c] l IH]; intros N; [reflexivity|].
  inversion N as [|? ? Hk N']; subst. cbn [flat_map fst snd get]. change str_eqb with String.eqb. rewrite budget_ok.
  destruct (String.eqb s k) eqn:E.
  - apply String.eqb_eq in E. subst k.
    assert (G : get s l = None) by (apply get_none_notin; exact Hk). specialize (IH N'). rewrite G in IH.
    destruct (limit cfg s) as [m|]; [|exact IH]. destruct (N.ltb m c); cbn [app get]; change str_eqb with String.eqb;
      [rewrite String.eqb_refl; reflexivity|exact IH].
  - rewrite <- IH by exact N'. destruct (limit cfg k) as [m|]; [|reflexivity]. destruct (N.ltb m c); [|reflexivity].
    cbn [app get]. change str_eqb with String.eqb. rewrite E. reflexivity.
Qed.

(** ** Requests come from billed fetches *)
Section Run.
Context (ryu : N -> string) (pt : ptypes) (xxh : list N -> N) (show : list fseg -> string)
        (vars : option (list (string * value))) (answer : job_kind -> outcome).
Lemma prepared n d k : prepare_job ryu pt xxh vars n d = PJob k -> exists m, In m (chosen vars n) /\ request_of m k.
Proof.
  induction n as [f|b|p n IH|l IH|l IH|v i e IHi IHe|] using node_ind'; intros E.
  - exists (NFetch f). split; [left; reflexivity|]. exact (prepare_leaf_request ryu pt xxh _ d k E).
  - exists (NBatch b). split; [left; reflexivity|]. exact (prepare_leaf_request ryu pt xxh _ d k E).
  - destruct n as [f| | | | | |]; try discriminate E. exists (NFlatten p (NFetch f)). split; [left; reflexivity|]. exact (prepare_leaf_request ryu pt xxh _ d k E).
  - discriminate E.
  - discriminate E.
  - cbn [prepare_job] in E. cbn [chosen]. destruct vars as [vs|]; [|discriminate]. destruct (get v vs) as [x|]; [|discriminate].
    destruct x as [|fb|iz|u|[|]|s|r|l|o]; try (destruct e as [n'|]; [apply IHe, E|discriminate]).
    destruct i as [n'|]; [apply IHi, E|discriminate].
  - discriminate E.
Qed.
Lemma prepared_all l d ks k : prepare_all ryu pt xxh vars l d = Some ks -> In k ks ->
  exists m, In m (flat_map (chosen vars) l) /\ request_of m k.
Proof.
  revert ks. induction l as [|n l IH]; intros ks E I'; [injection E as <-; destruct I'|].
  cbn [prepare_all] in E. destruct (prepare_job ryu pt xxh vars n d) as [| |k'] eqn:P; [discriminate| |];
    (destruct (prepare_all ryu pt xxh vars l d) as [ks'|]; [|discriminate]); injection E as <-.
  - destruct (IH _ eq_refl I') as [m [Hm R]]. exists m. split; [cbn; apply in_or_app; right; exact Hm|exact R].
  - destruct I' as [<-|I'].
    + destruct (prepared _ _ _ P) as [m [Hm R]]. exists m. split; [cbn; apply in_or_app; left; exact Hm|exact R].
    + destruct (IH _ eq_refl I') as [m [Hm R]]. exists m. split; [cbn; apply in_or_app; right; exact Hm|exact R].
Qed.
Lemma sent_chosen :
  (forall n c tr c', run ryu pt xxh show vars answer n c tr c' -> forall k, In k (sent tr) -> exists m, In m (chosen vars n) /\ request_of m k) /\
  (forall l c tr c', run_list ryu pt xxh show vars answer l c tr c' -> forall k, In k (sent tr) ->
     exists m, In m (flat_map (chosen vars) l) /\ request_of m k).
Proof.
  apply (run_both ryu pt xxh show vars answer).
  - intros l c ks ks' c' E P _ k Hk. rewrite sent_app, sent_map_sent, sent_map_done, app_nil_r in Hk.
    exact (prepared_all l (c_data c) ks k E Hk).
  - intros l c tr c' _ IH. exact IH.
  - intros v i e n c tr c' E _ IH. rewrite chosen_branch, E. exact IH.
  - intros v i e c E k [].
  - intros n c k c' Nl E _ k' [<-|[]]. eapply prepared. exact E.
  - intros n c Nl E k [].
  - intros c k [].
  - intros n l c tr1 c1 tr2 c2 _ IH1 _ IH2 k Hk. rewrite sent_app in Hk. apply in_app_iff in Hk. cbn [flat_map].
    destruct Hk as [Hk|Hk]; [destruct (IH1 k Hk) as [m [Hm R]]|destruct (IH2 k Hk) as [m [Hm R]]]; exists m;
      (split; [apply in_or_app|exact R]); [left|right]; exact Hm.
Qed.
Definition job_id (k : job_kind) : nat := match k with KFetch f _ | KFlatten f _ _ => f_id f | KBatch b _ _ => b_id b end.
Lemma chosen_billed n : forall m k, In m (chosen vars (exec_node n)) -> request_of m k -> In (service_of k, job_id k) (billed vars n).
Proof.
  assert (Many : forall l, Forall (fun n => forall m k, In m (chosen vars (exec_node n)) -> request_of m k ->
            In (service_of k, job_id k) (billed vars n)) l ->
          forall m k, In m (flat_map (chosen vars) (map exec_node l)) -> request_of m k -> In (service_of k, job_id k) (flat_map (billed vars) l)).
  { intros l IH m k I' R. apply in_flat_map in I'. destruct I' as [x [Hx Hm]]. apply in_map_iff in Hx. destruct Hx as [x' [<- Hn]].
    rewrite Forall_forall in IH. apply in_flat_map. exists x'. split; [exact Hn|]. eapply IH; eassumption. }
  induction n as [f|b|p n IH|l IH|l IH|v i e IHi IHe|f|p ds IHp IHd] using cnode_ind'; intros m k I' R; cbn [exec_node chosen billed] in *.
  - destruct I' as [<-|[]]. destruct k as [f' [p|]| |]; cbn in R; try contradiction. subst f'. left. reflexivity.
  - destruct I' as [<-|[]]. destruct k; cbn in R; try contradiction. subst. left. reflexivity.
  - destruct n; cbn [exec_node] in I'; try (destruct I'; fail). destruct I' as [<-|[]].
    destruct k as [f' [p'|]|f' p' j|]; cbn in R; try contradiction; destruct R as [-> _]; left; reflexivity.
  - eapply Many; eassumption.
  - eapply Many; eassumption.
  - unfold holds, var. destruct vars as [vs|]; [|destruct I']. destruct (get v vs) as [x|]; [|destruct I'].
    destruct x as [|fb|iz|u|[|]|s|r|l|o]; try (destruct e as [n'|]; [eapply IHe; eassumption|destruct I']).
    destruct i as [n'|]; [eapply IHi; eassumption|destruct I'].
  - destruct I'.
  - destruct I'.
Qed.
End Run.

(** A run only depends on the answers to what it sends. *)
Lemma process_all_ext pt show a b ks c : (forall k, In k ks -> a k = b k) -> process_all pt show a ks c = process_all pt show b ks c.
Proof.
  revert c. induction ks as [|k ks IH]; intros c H; [reflexivity|]. cbn [process_all]. rewrite (H k (or_introl eq_refl)).
  destruct (process_job pt show k (b k) c) as [c1|]; [|reflexivity]. apply IH. intros k' Hk. apply H. right. exact Hk.
Qed.
Lemma run_answers ryu pt xxh show vars a b n c tr c' : run ryu pt xxh show vars a n c tr c' ->
  (forall k, In k (sent tr) -> a k = b k) -> run ryu pt xxh show vars b n c tr c'.
Proof.
  assert (H : (forall n c tr c', run ryu pt xxh show vars a n c tr c' -> (forall k, In k (sent tr) -> a k = b k) -> run ryu pt xxh show vars b n c tr c') /\
              (forall l c tr c', run_list ryu pt xxh show vars a l c tr c' -> (forall k, In k (sent tr) -> a k = b k) -> run_list ryu pt xxh show vars b l c tr c')).
  { apply (run_both ryu pt xxh show vars a).
    - intros l c0 ks ks' c1 E P X H. econstructor; try eassumption. rewrite <- X. symmetry. apply process_all_ext.
      intros k Hk. apply H. rewrite sent_app, sent_map_sent. apply in_or_app. left. apply (Permutation_in _ (Permutation_sym P)). exact Hk.
    - intros l c0 tr0 c1 _ IH H. constructor. apply IH. exact H.
    - intros v i e n0 c0 tr0 c1 E _ IH H. econstructor; [exact E|]. apply IH. exact H.
    - intros v i e c0 E H. apply run_no_branch. exact E.
    - intros n0 c0 k c1 Nl E X H. eapply run_leaf; try eassumption. rewrite <- (H k (or_introl eq_refl)). exact X.
    - intros n0 c0 Nl E H. apply run_idle; assumption.
    - intros c0 H. constructor.
    - intros n0 l c0 tr1 c1 tr2 c2 _ IH1 _ IH2 H. econstructor; [apply IH1|apply IH2]; intros k Hk; apply H; rewrite sent_app; apply in_or_app; [left|right]; exact Hk. }
  intros R A. exact (proj1 H _ _ _ _ R A).
Qed.
(** ** What is served *)
Section Serve.
Context (ryu : N -> string) (pt : ptypes) (xxh : list N -> N) (show : list fseg -> string)
        (too_expensive : string -> gerror) (upstream : job_kind -> outcome)
        (vars : option (list (string * value))).
Definition fresh (cached : option fnode) (n : cnode) : Prop :=
  cached = None \/ cached = Some (formula sc cfg document root_type n).
Lemma decide_fresh cached n : fresh cached n -> decide sc cfg document root_type cached (Some n) vars =
  match evaluate sc vars (formula sc cfg document root_type n) with
  | CErr e => Invalid e
  | COk ev => if N.ltb (dc_max cfg) (ev_total ev) then match dc_mode cfg with Enforce => Rejected | Measure => Go ev end else Go ev
  end.
Proof. intros [->| ->]; reflexivity. Qed.
Lemma go_books cached n bill ev : fresh cached n -> Forall2 (costs sc cfg document root_type vars) (billed vars n) bill ->
  decide sc cfg document root_type cached (Some n) vars = Go ev ->
  books ev bill /\ (dc_mode cfg = Enforce -> N.ltb (dc_max cfg) (ev_total ev) = false).
Proof.
  intros F C D. rewrite (decide_fresh cached n F) in D.
  destruct (estimate vars False n bill C (fun q => match q with end)) as [B _].
  destruct (evaluate sc vars (formula sc cfg document root_type n)) as [ev1|e]; [|discriminate].
  specialize (B ev1 eq_refl). destruct (N.ltb (dc_max cfg) (ev_total ev1)) eqn:E.
  - destruct (dc_mode cfg); [discriminate|]. injection D as ->. split; [exact B|discriminate].
  - injection D as ->. split; [exact B|]. intros _. exact E.
Qed.
Lemma over_none cached n bill c cs res : fresh cached n ->
  Forall2 (costs sc cfg document root_type vars) (billed vars n) bill ->
  dc_mode cfg = Enforce -> dc_max cfg < 18446744073709551615 -> dc_max cfg < total (map snd bill) ->
  served sc cfg document root_type ryu pt xxh show too_expensive upstream cached (Some n) vars c cs res -> cs = [] /\ res = None.
Proof.
  intros F C M U O S. inversion S; subst; try (split; reflexivity); try discriminate.
  match goal with D : decide _ _ _ _ _ _ _ = Go _ |- _ => pose proof (go_books _ _ _ _ F C D) as [[T _] L]; specialize (L M) end.
  apply N.ltb_ge in L. rewrite T in L. unfold u64_max in L. lia.
Qed.
Lemma within_go cached n bill : fresh cached n ->
  Forall2 (costs sc cfg document root_type vars) (billed vars n) bill ->
  (forall s id, In (s, id) (billed vars n) -> sliced sc document root_type vars id) ->
  total (map snd bill) <= dc_max cfg \/ dc_mode cfg = Measure ->
  exists ev, decide sc cfg document root_type cached (Some n) vars = Go ev /\ books ev bill.
Proof.
  intros F C W L. rewrite (decide_fresh cached n F).
  destruct (estimate vars True n bill C (fun _ => W)) as [B X]. destruct (X I) as [ev E]. rewrite E. exists ev.
  specialize (B ev E). split; [|exact B]. destruct (N.ltb (dc_max cfg) (ev_total ev)) eqn:K; [|reflexivity].
  apply N.ltb_lt in K. destruct B as [T _]. rewrite T in K. destruct L as [L| ->]; [lia|reflexivity].
Qed.

Lemma calls_sent ev tr k : In k (calls cfg too_expensive upstream ev tr) <->
  In k (sent tr) /\ fst (execute cfg too_expensive upstream ev k) = true.
Proof.
  unfold calls. rewrite in_flat_map. split.
  - intros [e [He H]]. destruct e as [k'|k']; [|destruct H]. destruct (fst (execute _ _ _ ev k')) eqn:X; [|destruct H].
    destruct H as [<-|[]]. split; [|exact X]. unfold sent. apply in_flat_map. exists (Sent k'). split; [exact He|left; reflexivity].
  - intros [H X]. unfold sent in H. apply in_flat_map in H. destruct H as [e [He H]]. destruct e as [k'|k']; [|destruct H].
    destruct H as [<-|[]]. exists (Sent k'). split; [exact He|]. rewrite X. left. reflexivity.
Qed.
Lemma job_service_ok k : job_service k = service_of k.
Proof. destruct k; reflexivity. Qed.
Lemma execute_ok ev bill k : books ev bill -> (exists n, In (service_of k, n) bill) ->
  (forall m, limit cfg (service_of k) = Some m -> m < 18446744073709551615) ->
  execute cfg too_expensive upstream ev k =
    match dc_budget_mode cfg, limit cfg (service_of k) with
    | Enforce, Some m => if N.ltb m (total (for_service (service_of k) bill)) then (false, OErr [] (too_expensive (service_of k)))
                         else (true, upstream k)
    | _, _ => (true, upstream k)
    end.
Proof.
  intros [_ [Nd G]] [n Hn] L. unfold execute. rewrite job_service_ok, blocked_get by exact Nd. specialize (G (service_of k)).
  destruct (get (service_of k) (ev_subgraphs ev)) as [c|].
  - destruct (limit cfg (service_of k)) as [m|]; [|destruct (dc_budget_mode cfg); reflexivity].
    specialize (L m eq_refl). destruct G as [_ G]. unfold same_u64 in G.
    assert (E : N.ltb m c = N.ltb m (total (for_service (service_of k) bill))).
    { apply Bool.eq_iff_eq_true. rewrite !N.ltb_lt. lia. }
    rewrite E. clear E. destruct (N.ltb m (total (for_service (service_of k) bill))), (dc_budget_mode cfg); reflexivity.
  - exfalso. assert (H : In n (for_service (service_of k) bill)).
    { unfold for_service. apply in_flat_map. exists (service_of k, n). split; [exact Hn|]. cbn [fst snd]. rewrite String.eqb_refl. left. reflexivity. }
    rewrite G in H. destruct H.
Qed.
Lemma forall2_service s id l bill : Forall2 (costs sc cfg document root_type vars) l bill -> In (s, id) l -> exists n, In (s, n) bill.
Proof.
  induction 1 as [|x y l bill C _ IH]; intros H; [destruct H|]. destruct H as [->|H].
  - pose proof (costs_service vars _ _ C) as E. destruct y as [s' n]. cbn in E. subst s'. exists n. left. reflexivity.
  - destruct (IH H) as [n Hn]. exists n. right. exact Hn.
Qed.
Lemma budgets cached n bill c cs res : fresh cached n ->
  Forall2 (costs sc cfg document root_type vars) (billed vars n) bill ->
  (forall s m, limit cfg s = Some m -> m < 18446744073709551615) ->
  served sc cfg document root_type ryu pt xxh show too_expensive upstream cached (Some n) vars c cs res ->
  (forall k, In k cs -> In (service_of k, job_id k) (billed vars n) /\
                        (dc_budget_mode cfg = Enforce ->
                         forall m, limit cfg (service_of k) = Some m -> total (for_service (service_of k) bill) <= m)) /\
  forall c', res = Some c' -> exists tr,
    run ryu pt xxh show vars
      (fun k => match dc_budget_mode cfg, limit cfg (service_of k) with
                | Enforce, Some m => if N.ltb m (total (for_service (service_of k) bill)) then OErr [] (too_expensive (service_of k))
                                     else upstream k
                | _, _ => upstream k
                end) (exec_node n) c tr c' /\
    forall k, In k cs <-> In k (sent tr) /\
      ~ (dc_budget_mode cfg = Enforce /\ exists m, limit cfg (service_of k) = Some m /\ m < total (for_service (service_of k) bill)).
Proof.
  intros F C L S. inversion S as [| | |ev n' tr c' D E R]; subst;
    try (split; [intros k []|intros c' E; discriminate E]); try discriminate.
  injection E as <-. destruct (go_books _ _ _ _ F C D) as [B _].
  assert (X : forall k, In k (sent tr) -> In (service_of k, job_id k) (billed vars n)).
  { intros k Hk. destruct (proj1 (sent_chosen _ _ _ _ _ _) _ _ _ _ R k Hk) as [m [Hm Rq]]. eapply chosen_billed; eassumption. }
  assert (Y : forall k, In k (sent tr) -> execute cfg too_expensive upstream ev k =
    match dc_budget_mode cfg, limit cfg (service_of k) with
    | Enforce, Some m => if N.ltb m (total (for_service (service_of k) bill)) then (false, OErr [] (too_expensive (service_of k)))
                         else (true, upstream k)
    | _, _ => (true, upstream k)
    end).
  { intros k Hk. apply execute_ok; [exact B| |apply L]. eapply forall2_service; [exact C|]. exact (X k Hk). }
  split.
  - intros k Hk. apply calls_sent in Hk. destruct Hk as [Hk Go']. split; [exact (X k Hk)|]. intros M m Em.
    rewrite (Y k Hk), M, Em in Go'. destruct (N.ltb m (total (for_service (service_of k) bill))) eqn:Lt; [discriminate Go'|]. apply N.ltb_ge. exact Lt.
  - intros c'' E. injection E as <-. exists tr. split.
    + eapply run_answers; [exact R|]. intros k Hk. cbv beta. rewrite (Y k Hk). destruct (dc_budget_mode cfg); [|reflexivity].
      destruct (limit cfg (service_of k)) as [m|]; [|reflexivity]. destruct (N.ltb m (total (for_service (service_of k) bill))); reflexivity.
    + intros k. rewrite calls_sent. split.
      * intros [Hk Go']. split; [exact Hk|]. intros [M [m [Em Lt]]]. rewrite (Y k Hk), M, Em in Go'.
        apply N.ltb_lt in Lt. rewrite Lt in Go'. discriminate Go'.
      * intros [Hk Nb]. split; [exact Hk|]. rewrite (Y k Hk). destruct (dc_budget_mode cfg); [|reflexivity].
        destruct (limit cfg (service_of k)) as [m|]; [|reflexivity]. destruct (N.ltb m (total (for_service (service_of k) bill))) eqn:Lt; [|reflexivity].
        exfalso. apply Nb. split; [reflexivity|]. exists m. split; [reflexivity|]. apply N.ltb_lt. exact Lt.
Qed.
End Serve.
End R.
