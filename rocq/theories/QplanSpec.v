(** What the optimiser must keep: the work of the plan, and what running it does to the data. *)
From Coq Require Import String List NArith Bool Arith Permutation.
From Verif Require Import StrOrd StrUtil JsonModel JsonWriterModel MergeModel MergeSpec Ast AstHashModel TraverseModel TraverseSpec RewriteModel
  ProjModel ProjSpec RequiresModel RequiresProofs EntityModel EntitySpec ExecModel ExecSpec QplanModel.
Import ListNotations.
Local Open Scope list_scope.

(** ** Work *)
(** Ask this service for this selection on the entities at this path. *)
Record task := mktask {
  t_service : string; t_path : list fseg; t_requires : list sel; t_in : list rewrite;
  t_selection : list sel; t_out : list rewrite }.
Definition task_of (c : cand) : task :=
  mktask (k_service c) (k_path c) (k_requires c) (k_in c) (k_selection c) (k_out c).
Definition fetch_of (c : cand) : fetch := mkfetch (k_id c) (k_service c) (Some (k_requires c)) (k_in c) (k_out c).
Definition node_of (c : cand) : node := NFlatten (k_path c) (NFetch (fetch_of c)).
(** The work of a batch: under each alias, at each of its paths, the selection of the field with
    that alias. *)
Definition batch_tasks (b : built) : list task :=
  flat_map (fun ai => map (fun p => mktask (b_service (bt_node b)) p (a_requires (fst ai)) (a_in (fst ai)) (snd (snd ai)) (a_out (fst ai)))
                          (a_paths (fst ai)))
           (combine (b_aliases (bt_node b)) (bt_items b)).

(** A batch that stands for a group of fetches: an operation without name clashes. *)
Definition well_built (g : list cand) (b : built) : Prop :=
  (forall c, In c g -> k_service c = b_service (bt_node b)) /\
  map (fun a => (a_alias a, a_var a)) (b_aliases (bt_node b)) = map fst (bt_items b) /\
  NoDup (map a_alias (b_aliases (bt_node b))) /\
  (forall a, In a (b_aliases (bt_node b)) -> In (a_var a) (bt_reps b)) /\
  NoDup (bt_reps b) /\
  (forall v d, In v (bt_reps b) -> In d (bt_vars b) -> v <> vd_name d) /\
  (forall v, (exists c, In c g /\ In v (k_vars c)) <-> In v (bt_vars b)) /\
  (forall u, (exists c, In c g /\ In u (k_usages c)) <-> In u (bt_usages b)) /\
  Forall (fun a => exists p ps, a_paths a = p :: ps) (b_aliases (bt_node b)).
(** The parallel node [nodes'] is [nodes] with groups of fetches replaced by batches. *)
Definition regrouped (nodes nodes' : list node) (bs : list (list cand * built)) : Prop :=
  exists kept,
    Permutation nodes (kept ++ map node_of (flat_map fst bs)) /\
    Permutation nodes' (kept ++ map (fun gb => NBatch (bt_node (snd gb))) bs) /\
    Forall (fun gb => well_built (fst gb) (snd gb)) bs.

Section D.
  Variables HF HX : list token -> N.
  Variable alike : list sel -> list sel -> bool.
  (** Comparing fetches confuses none of these. *)
  Definition discerning (cs : list cand) : Prop := forall a b, In a cs -> In b cs ->
    (sels_eqb (k_requires a) (k_requires b) && alike (k_requires a) (k_requires b) = true -> k_requires a = k_requires b) /\
    (eq_shape HF HX a b = true -> k_requires a = k_requires b /\ k_selection a = k_selection b).
  Definition same_work (g : list cand) (b : built) : Prop :=
    (forall t, In t (map task_of g) <-> In t (batch_tasks b)) /\
    (forall a a', In a (b_aliases (bt_node b)) -> In a' (b_aliases (bt_node b)) -> a_var a = a_var a' ->
       a_requires a = a_requires a' /\ a_in a = a_in a' /\ a_paths a = a_paths a').
End D.
(** No alias, arguments or conditions: only names. *)
Fixpoint bare (x : sel) : bool :=
  match x with
  | SField _ None None None None false sub => forallb bare sub
  | SFrag _ None None sub => forallb bare sub
  | _ => false
  end.

(** ** Runs *)
(** A condition has a body. *)
Definition proper (n : node) : bool := match n with NCondition _ None None => false | _ => true end.
(** Nodes without parallel parts, as in the bodies of conditions. *)
Fixpoint simple (n : node) : bool :=
  match n with
  | NFetch _ | NBatch _ => true
  | NFlatten _ n' => match n' with NFetch _ => true | _ => false end
  | NSequence l => forallb simple l
  | NParallel _ | NOther => false
  | NCondition _ i e =>
      match i, e with
      | None, None => false
      | _, _ => match i with Some n' => simple n' | None => true end && match e with Some n' => simple n' | None => true end
      end
  end.
(** What the planner makes of one step. *)
Definition step_node (n : node) : bool := leaf n && simple n.

(** The variables of a fetch have different names. *)
Definition own_vars (c : cand) : Prop := NoDup (map vd_name (k_vars c)).
Definition waves_ok (info : nat -> option (list sel * list vardef * list string)) (waves : list (list node)) : Prop :=
  Forall (fun w => forallb step_node w = true /\ Forall own_vars (candidates info w)) waves.

Section H.
  Variable ryu : N -> string.
  Variable pt : ptypes.
  Variable xxh : list N -> N.
  Variable show : list fseg -> string.
  Variable vars : option (list (string * value)).
  Variable answer : job_kind -> outcome.
  Variables HF HX : list token -> N.
  Variable info : nat -> option (list sel * list vardef * list string).
  Variable alike : list sel -> list sel -> bool.
  (** How the services resolve one entity: service, selection, representation. *)
  Variable resolve : string -> list sel -> value -> value.

  (** The task brings this value to this position. *)
  Definition contributes (t : task) (d : value) (u : list seg * value) : Prop :=
    exists x r, selects pt (t_path t) d (fst u) x /\ its_rep pt (t_requires t) (t_in t) x = Some r /\
                apply_rewrites pt (t_out t) (resolve (t_service t) (t_selection t) r) = Some (snd u).

  (** [reps] are the representations of the entities at these paths, in the order of their numbers. *)
  Definition number_of (sels : list sel) (index : list (N * nat)) (e : value) : option nat :=
    match hash_of pt xxh sels e with Some h => nget h index | None => None end.
  Definition numbered (d : value) (sels : list sel) (rws : list rewrite) (index : list (N * nat)) (paths : list (list fseg)) (reps : list value) : Prop :=
    (forall p e, In p paths -> In e (visit pt p d) -> its_rep pt sels rws e = pick (number_of sels index e) reps) /\
    (forall i, i < length reps -> exists p e, In p paths /\ In e (visit pt p d) /\ number_of sels index e = Some i).
  (** A single fetch, or a batch, is answered entity by entity. *)
  Definition honest_fetch (d : value) (c : cand) : Prop :=
    forall j reps, prepare_flatten ryu pt xxh (k_requires c) (k_in c) (k_path c) d = Some (Some j) ->
    numbered d (k_requires c) (k_in c) (j_index j) [k_path c] reps -> j_text j = print_value ryu (VArr reps) ->
    exists pre r, answer (KFlatten (fetch_of c) (k_path c) j) = OOk pre r /\
      take_entities_by_key "_entities" (r_data r) = Some (map (resolve (k_service c) (k_selection c)) reps).
  Definition honest_batch (d : value) (b : built) : Prop :=
    forall vs sts, prepare_batch ryu pt xxh (b_aliases (bt_node b)) d [] = Some (vs, sts) ->
    exists pre r, answer (KBatch (bt_node b) vs sts) = OOk pre r /\
    forall st s reps, let a := as_alias st in In st sts -> In (a_alias a, a_var a, s) (bt_items b) ->
      numbered d (a_requires a) (a_in a) (as_index st) (a_paths a) reps -> get (a_var a) vs = Some (print_value ryu (VArr reps)) ->
      take_entities_by_key (a_alias a) (r_data r) = Some (map (resolve (b_service (bt_node b)) s) reps).

  Definition node_paths (n : node) : list (list fseg) := flat_map (fun m => match m with
    | NFlatten p _ => [p]
    | NBatch b => flat_map a_paths (b_aliases b)
    | _ => []
    end) (chosen vars n).

  (** What is assumed of a wave that starts with data [d]: the fetches compare and hash without
      confusion (C11, C15), services answer entity by entity, and the answers do not contradict
      each other or what is known (C42). *)
  Record fit (nodes : list node) (d : value) : Prop := {
    ft_wf : wf d;
    ft_leaf : forallb step_node nodes = true;
    ft_sound : forallb sound nodes = true;
    ft_plain : forall c, In c (candidates info nodes) -> forallb plain_sel (k_requires c) = true;
    ft_faithful : forall c D, In c (candidates info nodes) ->
      (forall e, In e D -> exists c', In c' (candidates info nodes) /\ k_requires c' = k_requires c /\ k_in c' = k_in c /\
                                      In e (visit pt (k_path c') d)) ->
      faithful pt xxh (k_requires c) (k_in c) D /\ all_tidy pt (k_requires c) (k_in c) D;
    ft_discerning : discerning HF HX alike (candidates info nodes);
    ft_fetches : forall c, In c (candidates info nodes) -> honest_fetch d c;
    ft_batches : forall rs i b is, replacements_of HF HX alike (by_subgraph (candidates info nodes)) = Some rs ->
      In (i, b, is) rs -> honest_batch d b;
    ft_compatible : exists pos, listed pt d pos /\
      forall ks, prepare_all ryu pt xxh vars nodes d = Some ks ->
      let R := patches pt pos d answer ks in
      Forall wf R /\ (forall a, In a R -> agree d a) /\ (forall a b, In a R -> In b R -> agree a b) /\
      (forall rs n p, incl rs R -> In n nodes -> In p (node_paths n) -> same_positions pt p d (merge_all d rs)) }.

  (** Every wave is fit, whatever the earlier ones came to. *)
  Fixpoint all_fit (waves : list (list node)) (d : value) : Prop :=
    match waves with
    | [] => True
    | w :: ws => fit w d /\ forall c tr c', c_data c = d -> run ryu pt xxh show vars answer (NParallel w) c tr c' ->
                                            all_fit ws (c_data c')
    end.
End H.
