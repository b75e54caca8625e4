From Coq Require Import String List Bool NArith ZArith Lia.
From Verif Require Import StrOrd Ast JsonModel MergeModel TraverseModel RewriteModel RequiresModel EntityModel
  ExecModel ExecSpec ExecErrors CostModel CostSpec CostProofs CostExpr CostPlan CostMono.
Import ListNotations.
Local Open Scope N_scope.
Local Open Scope string_scope.
Local Open Scope list_scope.

Lemma estimate_is_cost sc cfg document root_type vars n bill ev :
  Forall2 (costs sc cfg document root_type vars) (billed vars n) bill ->
  evaluate sc vars (formula sc cfg document root_type n) = COk ev ->
  ev_total ev = N.min 18446744073709551615 (total (map snd bill)) /\
  forall s, match get s (ev_subgraphs ev) with
            | Some c => for_service s bill <> [] /\ same_u64 c (total (for_service s bill))
            | None => for_service s bill = []
            end.
Proof.
  intros C E. destruct (estimate sc cfg document root_type vars False n bill C (fun q => match q with end)) as [B _].
  destruct (B ev E) as [T [_ G]]. split; assumption.
Qed.
Lemma estimate_exists sc cfg document root_type vars n bill :
  Forall2 (costs sc cfg document root_type vars) (billed vars n) bill ->
  (forall s id, In (s, id) (billed vars n) -> sliced sc document root_type vars id) ->
  exists ev, evaluate sc vars (formula sc cfg document root_type n) = COk ev.
Proof.
  intros C W. destruct (estimate sc cfg document root_type vars True n bill C (fun _ => W)) as [_ X]. exact (X I).
Qed.
Lemma affordable sc cfg document root_type vars cached n bill :
  cached = None \/ cached = Some (formula sc cfg document root_type n) ->
  Forall2 (costs sc cfg document root_type vars) (billed vars n) bill ->
  (forall s id, In (s, id) (billed vars n) -> sliced sc document root_type vars id) ->
  total (map snd bill) <= dc_max cfg \/ dc_mode cfg = Measure ->
  exists ev, decide sc cfg document root_type cached (Some n) vars = Go ev.
Proof. intros F C W L. destruct (within_go sc cfg document root_type vars cached n bill F C W L) as [ev [H _]]. eauto. Qed.
Lemma over_budget_reported sc cfg document root_type ryu pt xxh show too_expensive upstream vars cached n bill c cs c' :
  cached = None \/ cached = Some (formula sc cfg document root_type n) ->
  Forall2 (costs sc cfg document root_type vars) (billed vars n) bill ->
  (forall s m, limit cfg s = Some m -> m < 18446744073709551615) ->
  served sc cfg document root_type ryu pt xxh show too_expensive upstream cached (Some n) vars c cs (Some c') ->
  exists asked, (forall k, In k cs -> In k asked) /\
    forall k, In k asked -> In k cs \/ In (too_expensive (service_of k)) (c_errors c').
Proof.
  intros F C L S. destruct (budgets sc cfg document root_type ryu pt xxh show too_expensive upstream vars cached n bill c cs (Some c') F C L S) as [_ B].
  destruct (B c' eq_refl) as [tr [R K]]. exists (sent tr). split; [intros k Hk; apply K; exact Hk|].
  intros k Hk. destruct (run_all_reported _ _ _ _ _ _ _ _ _ _ R) as [_ [es [E Rep]]]. specialize (Rep k Hk).
  destruct (dc_budget_mode cfg) eqn:M.
  - destruct (limit cfg (service_of k)) as [m|] eqn:Em.
    + destruct (N.ltb m (total (for_service (service_of k) bill))) eqn:Lt.
      * right. rewrite E. apply in_or_app. right. cbn [reported] in Rep. apply Rep. left. reflexivity.
      * left. apply K. split; [exact Hk|]. intros [_ [m' [E' Lt']]]. rewrite Em in E'. injection E' as <-. apply N.ltb_ge in Lt. lia.
    + left. apply K. split; [exact Hk|]. intros [_ [m' [E' _]]]. rewrite Em in E'. discriminate E'.
  - left. apply K. split; [exact Hk|]. intros [H _]. discriminate H.
Qed.

(** ** Witnesses *)
Definition query_root (k : option opkind) : string := "Query".
Definition simple_fetch (id : nat) (s : string) : fetch := mkfetch id s None [] [].
Definition wrap_schema : cschema :=
  [("Query", DObject None [("f", mkcf (TNamed "Int") None None [] [("a", TList (TNamed "In"))])]);
   ("In", DInput [("x", (Some 9223372036854775807, TNamed "Int"))]);
   ("Int", DScalar None)].
Definition wrap_sels : list sel :=
  [SField "f" None (Some [("a", GList [GObj [("x", GInt 1%Z)]; GObj [("x", GInt 1%Z)]])]) None None false []].
Definition plain_config (m : N) : dc_config := mkdc m Enforce None None Enforce None None.
Lemma input_costs_wrap : exists sc cfg document root_type vars f sels ev,
  document (f_id f) = (Some KQuery, [], sels) /\ inlined [] sels sels /\
  dc_mode cfg = Enforce /\ dc_max cfg < 18446744073709551615 /\
  dc_max cfg < operation_cost sc (assumed_size cfg (f_service f)) vars (Some KQuery) (root_type (Some KQuery)) sels /\
  decide sc cfg document root_type None (Some (PFetch f)) vars = Go ev.
Proof.
  exists wrap_schema, (plain_config 10), (fun _ => (Some KQuery, [], wrap_sels)), query_root, None, (simple_fetch 0 "a"), wrap_sels.
  eexists. split; [reflexivity|]. split; [repeat constructor|]. split; [reflexivity|]. split; [reflexivity|].
  split; [vm_compute; reflexivity|]. vm_compute. reflexivity.
Qed.

Definition ex_schema : cschema :=
  [("Query", DObject None
      [("me", mkcf (TNamed "User") None None [] []);
       ("users", mkcf (TNonNull (TList (TNamed "User"))) None (Some (mkls None (Some [("first", [])]) None true)) [] [("first", TNamed "Int")])]);
   ("User", DObject None
      [("name", mkcf (TNamed "String") (Some 2) None [] []);
       ("friends", mkcf (TList (TNamed "User")) None (Some (mkls (Some 1) None None false)) [] []);
       ("tags", mkcf (TList (TNamed "String")) None (Some (mkls None (Some [("first", [])]) None true)) [] [])]);
   ("Review", DObject None []);
   ("String", DScalar None); ("Int", DScalar None)].
Definition plain (n : string) (sub : list sel) : sel := SField n None None None None false sub.
Definition users_sels : list sel :=
  [SField "users" None (Some [("first", GVar "n")]) None None false [plain "name" []; plain "friends" [plain "name" []]]].
Definition ex_document (id : nat) : option opkind * list frag * list sel :=
  match id with
  | O => (Some KQuery, [], users_sels)
  | _ => (Some KQuery, [], [plain "_entities" [SFrag "User" None None [plain "name" []; plain "unknown" []]]])
  end.
Definition ex_root (k : option opkind) : string := "Query".
Definition ex_config : dc_config := mkdc 100 Enforce (Some 4) None Enforce None None.
Definition ex_plan : cnode :=
  PSequence [PFetch (simple_fetch 0 "users"); PFlatten [] (PFetch (simple_fetch 1 "reviews"))].
Lemma simple_costs sc cfg document root_type vars s id kind sels n :
  document id = (kind, [], sels) -> forallb entities_inline sels = true -> inlined [] sels sels ->
  flat_map (inputs sc (root_type kind)) sels = [] ->
  operation_cost sc (assumed_size cfg s) vars kind (root_type kind) sels = n ->
  costs sc cfg document root_type vars (s, id) (s, n).
Proof.
  intros D E I In' <-. apply (costs_intro sc cfg document root_type vars s id kind [] sels sels); try assumption; try constructor.
  rewrite In'. intros v t [].
Qed.
Lemma ex_bill :
  Forall2 (costs ex_schema ex_config ex_document ex_root (Some [("n", VU64 5)])) (billed (Some [("n", VU64 5)]) ex_plan)
    [("users", 30); ("reviews", 16)].
Proof.
  constructor; [|constructor; [|constructor]].
  - change 30 with (operation_cost ex_schema (assumed_size ex_config "users") (Some [("n", VU64 5)]) (Some KQuery) (ex_root (Some KQuery)) users_sels).
    apply (costs_intro ex_schema ex_config ex_document ex_root (Some [("n", VU64 5)]) "users" 0 (Some KQuery) [] users_sels users_sels); try reflexivity.
    + constructor.
    + constructor.
    + unfold users_sels, plain. repeat constructor.
    + intros v t H. cbn in H. destruct H as [H|[]]. injection H as <- <-. cbn. lia.
  - eapply simple_costs; try reflexivity. unfold plain. repeat constructor.
Qed.

Definition list_schema : cschema :=
  [("Query", DObject None [("items", mkcf (TList (TNamed "Item")) None None [] [])]); ("Item", DObject None [])].
Definition list_config : dc_config := mkdc 5 Enforce None (Some [("b", 10)]) Enforce (Some 5) None.
Definition list_document (_ : nat) : option opkind * list frag * list sel := (Some KQuery, [], [plain "items" []]).
Lemma list_costs s : costs list_schema list_config list_document query_root None (s, O)
  (s, operation_cost list_schema (assumed_size list_config s) None (Some KQuery) "Query" [plain "items" []]).
Proof. eapply simple_costs; try reflexivity. unfold plain. repeat constructor. Qed.

Definition loose_config : dc_config := mkdc 50 Enforce None (Some [("b", 10)]) Enforce (Some 5) None.
Lemma subscription_budget : exists sc cfg document root_type vars f bill ev,
  Forall2 (costs sc cfg document root_type vars) (billed vars (PSubscription f)) bill /\
  dc_budget_mode cfg = Enforce /\
  (exists m, limit cfg (f_service f) = Some m /\ m < 18446744073709551615 /\ m < total (for_service (f_service f) bill)) /\
  decide sc cfg document root_type None (Some (PSubscription f)) vars = Go ev /\ subscribe ev f = true.
Proof.
  exists list_schema, loose_config, list_document, query_root, None, (simple_fetch 0 "b"), [("b", 10)]. eexists.
  split; [|split; [reflexivity|split; [exists 5; split; [reflexivity|split; reflexivity]|split; [vm_compute; reflexivity|reflexivity]]]].
  constructor; [|constructor]. eapply simple_costs; try reflexivity. unfold plain. repeat constructor.
Qed.
Definition refuse (_ : string) : gerror := mkerr "too expensive" [] None None None None [].
Definition down (_ : job_kind) : outcome := OErr [] (mkerr "down" [] None None None None []).
Definition no_types : ptypes := fun _ => None.
Lemma cached_formula : exists sc cfg document root_type ryu pt xxh show too_expensive upstream vars n n' bill c k c',
  Forall2 (costs sc cfg document root_type vars) (billed vars n) bill /\
  dc_mode cfg = Enforce /\ dc_budget_mode cfg = Enforce /\
  dc_max cfg < 18446744073709551615 /\ dc_max cfg < total (map snd bill) /\
  (exists m, limit cfg (service_of k) = Some m /\ m < 18446744073709551615 /\ m < total (for_service (service_of k) bill)) /\
  served sc cfg document root_type ryu pt xxh show too_expensive upstream
    (Some (formula sc cfg document root_type n')) (Some n) vars c [k] (Some c').
Proof.
  set (f := simple_fetch 0 "b").
  exists list_schema, list_config, list_document, query_root, (fun _ => ""), no_types, (fun _ => 0), (fun _ => ""),
    refuse, down, None,
    (PFetch f), (PFetch (simple_fetch 0 "a")), [("b", 10)], (mkctx VNull []), (KFetch f None). eexists.
  split; [constructor; [|constructor]; eapply simple_costs; try reflexivity; unfold plain; repeat constructor|].
  split; [reflexivity|]. split; [reflexivity|]. split; [reflexivity|]. split; [reflexivity|].
  split; [exists 5; split; [reflexivity|split; reflexivity]|].
  assert (E : [KFetch f None] = calls list_config refuse down (mkev 0 [("a", 0)]) [Sent (KFetch f None); Done (KFetch f None)]) by reflexivity.
  rewrite E. eapply served_run; [vm_compute; reflexivity|reflexivity|].
  eapply run_leaf; [exact I|reflexivity|]. vm_compute. reflexivity.
Qed.
Lemma unsliced_list : exists sc cfg document root_type vars f ev,
  ~ sliced sc document root_type vars (f_id f) /\
  decide sc cfg document root_type None (Some (PFetch f)) vars = Go ev.
Proof.
  exists ex_schema, ex_config, (fun _ => (Some KQuery, [], [plain "me" [plain "tags" []]])), query_root, None, (simple_fetch 0 "users").
  eexists. split; [|vm_compute; reflexivity].
  intros H. specialize (H _ _ _ [plain "me" [plain "tags" []]] eq_refl). cbn in H. assert (K : false = true); [|discriminate K].
  apply H. unfold plain. repeat constructor.
Qed.
