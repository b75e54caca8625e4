(** From fetch steps to the executable plan.
    Models bin/router/src/query_planner/planner/plan_nodes.rs:375-415,595-650,757-800,
    query_planner/planner/query_plan.rs:144-171, query_planner/planner/query_plan/optimize.rs and the
    shape hash of query_planner/ast/hash.rs:55-57,128-146,158-175,198-216,234-248. *)
From Coq Require Import String List NArith ZArith Bool Arith.
From Verif Require Import StrOrd StrUtil Ast AstHashModel TraverseModel RewriteModel EntityModel ExecModel.
Import ListNotations.
Local Open Scope string_scope.
Local Open Scope list_scope.

(** ** Plan nodes *)
(** [Condition], a step's own condition *)
Inductive cond := CInclude (v : string) | CSkip (v : string) | CSkipAndInclude (skip include : string).
(** [PlanNode::from_fetch_step], plan_nodes.rs:757-800 *)
Definition from_fetch_step (path : list fseg) (f : fetch) (subscription : bool) (c : option cond) : node :=
  let n := match path with
           | _ :: _ => NFlatten path (NFetch f)
           | [] => if subscription then NOther else NFetch f
           end in
  match c with
  | None => n
  | Some (CInclude v) => NCondition v (Some n) None
  | Some (CSkip v) => NCondition v None (Some n)
  | Some (CSkipAndInclude s i) => NCondition s None (Some (NCondition i (Some n) None))
  end.

(** plan_nodes.rs:606-611 *)
Definition flatten_sequence (n : node) : list node := match n with NSequence l => l | _ => [n] end.
(** plan_nodes.rs:614-623 *)
Definition flatten_parallel (l : list node) : list node :=
  flat_map (fun n => match n with NParallel l' => l' | _ => [n] end) l.
(** plan_nodes.rs:625-639 *)
Definition sequence (l : list node) : node := match l with [n] => n | _ => NSequence l end.
Definition parallel (l : list node) : node := match l with [n] => n | _ => NParallel l end.
(** plan_nodes.rs:641-649 *)
Definition is_fetching (n : node) : bool :=
  match n with NFetch _ | NBatch _ | NFlatten _ (NFetch _) => true | _ => false end.

Definition none {A} (o : option A) : bool := match o with None => true | Some _ => false end.
(** [ConditionNode::can_merge_with], plan_nodes.rs:384-393 *)
Definition can_merge_with (v : string) (i e : option node) (v' : string) (i' e' : option node) : bool :=
  String.eqb v v' && ((none e && none e') || (none i && none i')).
(** [take_inner_nodes], plan_nodes.rs:410-416 *)
Definition inner_nodes (i e : option node) : list node :=
  match i, e with
  | Some n, _ => flatten_sequence n
  | None, Some n => flatten_sequence n
  | None, None => []
  end.
(** [ConditionNode::merge], plan_nodes.rs:396-408.  Taking the inner nodes empties the clause they
    came from. *)
Definition merge_conditions (v : string) (i e i' e' : option node) : node :=
  let body := sequence (inner_nodes i e ++ inner_nodes i' e') in
  match i with
  | Some _ => NCondition v (Some body) e
  | None => NCondition v None (Some body)
  end.

(** [optimize_plan_sequence], optimize.rs:825-860; the accumulator is in reverse *)
Definition fold_step (acc : list node) (n : node) : list node :=
  match acc, n with
  | NCondition v i e :: acc', NCondition v' i' e' =>
      if can_merge_with v i e v' i' e' then merge_conditions v i e i' e' :: acc' else n :: acc
  | _, _ => n :: acc
  end.
Definition optimize_plan_sequence (l : list node) : list node :=
  rev (fold_left fold_step (flat_map (fun n => match n with NSequence l' => l' | _ => [n] end) l) []).

(** ** Comparing fetches *)
(** [PartialEq for SelectionItem] and [SelectionSet], selection_item.rs:201-216, selection_set.rs:34-40 *)
Fixpoint sel_eqb (x y : sel) : bool :=
  match x, y with
  | SField n _ _ _ _ _ sub, SField n' _ _ _ _ _ sub' =>
      String.eqb n n' &&
      (fix go (l l' : list sel) : bool :=
         match l, l' with
         | [], [] => true
         | a :: l, b :: l' => sel_eqb a b && go l l'
         | _, _ => false
         end) sub sub'
  | SFrag t _ _ sub, SFrag t' _ _ sub' =>
      String.eqb t t' &&
      (fix go (l l' : list sel) : bool :=
         match l, l' with
         | [], [] => true
         | a :: l, b :: l' => sel_eqb a b && go l l'
         | _, _ => false
         end) sub sub'
  | _, _ => false
  end.
Fixpoint sels_eqb (l l' : list sel) : bool :=
  match l, l' with
  | [], [] => true
  | a :: l, b :: l' => sel_eqb a b && sels_eqb l l'
  | _, _ => false
  end.

(** [PartialEq for Value], value.rs:34-49 *)
Fixpoint gvalue_eqb (x y : gvalue) : bool :=
  match x, y with
  | GVar a, GVar b => String.eqb a b
  | GInt a, GInt b => Z.eqb a b
  | GFloat a, GFloat b => N.eqb a b
  | GStr a, GStr b => String.eqb a b
  | GBool a, GBool b => Bool.eqb a b
  | GNull, GNull => true
  | GEnum a, GEnum b => String.eqb a b
  | GList a, GList b =>
      (fix go (a b : list gvalue) : bool :=
         match a, b with
         | [], [] => true
         | u :: a, v :: b => gvalue_eqb u v && go a b
         | _, _ => false
         end) a b
  | GObj a, GObj b =>
      (fix go (a b : list (string * gvalue)) : bool :=
         match a, b with
         | [], [] => true
         | (k, u) :: a, (k', v) :: b => String.eqb k k' && gvalue_eqb u v && go a b
         | _, _ => false
         end) a b
  | _, _ => false
  end.
Fixpoint tnode_eqb (x y : tnode) : bool :=
  match x, y with
  | TNamed a, TNamed b => String.eqb a b
  | TList a, TList b => tnode_eqb a b
  | TNonNull a, TNonNull b => tnode_eqb a b
  | _, _ => false
  end.
(** [VariableDefinition::can_merge], operation.rs:220-226 *)
Definition can_merge_var (x y : vardef) : bool :=
  String.eqb (vd_name x) (vd_name y) && tnode_eqb (vd_type x) (vd_type y) &&
  match vd_default x, vd_default y with
  | None, None => true
  | Some a, Some b => gvalue_eqb a b
  | _, _ => false
  end.

Fixpoint list_eqb {A} (eqb : A -> A -> bool) (l l' : list A) : bool :=
  match l, l' with
  | [], [] => true
  | a :: l, b :: l' => eqb a b && list_eqb eqb l l'
  | _, _ => false
  end.
Definition rseg_eqb (a b : rseg) : bool :=
  match a, b with
  | RKey x, RKey y => String.eqb x y
  | RTypes x, RTypes y => list_eqb String.eqb x y
  | _, _ => false
  end.
(** derived [PartialEq for FetchRewrite], plan_nodes.rs:438-442 *)
Definition rewrite_eqb (a b : rewrite) : bool :=
  match a, b with
  | KeyRenamer p k, KeyRenamer q l => list_eqb rseg_eqb p q && String.eqb k l
  | ValueSetter p k, ValueSetter q l => list_eqb rseg_eqb p q && String.eqb k l
  | _, _ => false
  end.

Section Shape.
  (** FxHasher (items, arguments) and Xxh3 (the whole) *)
  Variables HF HX : list token -> N.
  Definition wrapping_sum (l : list N) : N := fold_left (fun a b => ((a + b) mod 2 ^ 64)%N) l 0%N.
  Definition combined (l : list N) : list token :=
    [TWord (fold_left N.lxor l 0%N); TWord (wrapping_sum l); TWord (N.of_nat (length l) mod 2 ^ 64)].
  (** [semantic_shape_hash], hash.rs:128-146,158-175,198-216,234-248; spreads are inlined before *)
  Fixpoint shape_tokens (x : sel) : list token :=
    match x with
    | SField n a args i s o sub =>
        (TStr n :: alias_tokens a ++ combined (map (fun y => HF (shape_tokens y)) sub) ++
         (match args with Some l => [TWord (args_hash HF l)] | None => [] end) ++
         cond_tokens i s ++ [word_of_bool o])
    | SFrag t i s sub =>
        (TStr t :: combined (map (fun y => HF (shape_tokens y)) sub) ++ cond_tokens i s)
    | SSpread _ => []
    end.
  Definition shape_hash (l : list sel) : N := HX (combined (map (fun y => HF (shape_tokens y)) l)).

  (** [EntityFetch], optimize.rs:318-331 *)
  Record cand := mkcand {
    k_index : nat; k_id : nat; k_service : string; k_path : list fseg; k_usages : list string;
    k_requires : list sel; k_selection : list sel; k_in : list rewrite; k_out : list rewrite;
    k_vars : list vardef }.
  (** [eq_shape], optimize.rs:337-343.  The hashes of the rewrites agree when the rewrites do. *)
  Definition eq_shape (a b : cand) : bool :=
    N.eqb (shape_hash (k_requires a)) (shape_hash (k_requires b)) &&
    N.eqb (shape_hash (k_selection a)) (shape_hash (k_selection b)) &&
    sels_eqb (k_requires a) (k_requires b) && sels_eqb (k_selection a) (k_selection b) &&
    list_eqb rewrite_eqb (k_in a) (k_in b) && list_eqb rewrite_eqb (k_out a) (k_out b).

  (** What the optimiser reads off a fetch's operation, by [f_id]: the selection of [_entities], the
      variable definitions other than the representations, and the variables used.  [None]: no
      [_entities] field with a variable. *)
  Variable info : nat -> option (list sel * list vardef * list string).
  (** [EntityFetch::from_node], optimize.rs:345-422 *)
  Definition from_node (index : nat) (n : node) : option cand :=
    match n with
    | NFlatten p (NFetch f) =>
        match info (f_id f), f_requires f with
        | Some (sels, vars, usages), Some req =>
            Some (mkcand index (f_id f) (f_service f) p usages req sels (f_in f) (f_out f) vars)
        | _, _ => None
        end
    | _ => None
    end.

  (** ** Grouping *)
  Fixpoint enumerate {A} (i : nat) (l : list A) : list (nat * A) :=
    match l with [] => [] | a :: l' => (i, a) :: enumerate (S i) l' end.
  Definition candidates (nodes : list node) : list cand :=
    flat_map (fun t => match from_node (fst t) (snd t) with Some c => [c] | None => [] end) (enumerate 0 nodes).
  (** [partition_by_subgraph], optimize.rs:607-623: one list per service, in plan order.  The map is
      iterated in an unspecified order; here by first occurrence. *)
  Fixpoint put_by (c : cand) (m : list (string * list cand)) : list (string * list cand) :=
    match m with
    | [] => [(k_service c, [c])]
    | (s, l) :: m' => if String.eqb s (k_service c) then (s, l ++ [c]) :: m' else (s, l) :: put_by c m'
    end.
  Definition by_subgraph (l : list cand) : list (string * list cand) := fold_left (fun m c => put_by c m) l [].

  (** optimize.rs:732-767 *)
  Definition can_merge_vars (merged other : list vardef) : bool :=
    forallb (fun o => match find (fun v => String.eqb (vd_name v) (vd_name o)) merged with
                      | None => true
                      | Some v => can_merge_var v o
                      end) other.
  Definition merge_vars (merged other : list vardef) : list vardef :=
    fold_left (fun m v => if existsb (fun x => String.eqb (vd_name x) (vd_name v)) m then m else m ++ [v]) other merged.
  (** [partition_by_variables_compatibility], optimize.rs:697-730 *)
  Fixpoint put_vars (c : cand) (gs : list (list cand * list vardef)) : list (list cand * list vardef) :=
    match gs with
    | [] => [([c], k_vars c)]
    | (l, vs) :: gs' =>
        if can_merge_vars vs (k_vars c) then (l ++ [c], merge_vars vs (k_vars c)) :: gs'
        else (l, vs) :: put_vars c gs'
    end.
  Definition by_variables (l : list cand) : list (list cand * list vardef) := fold_left (fun gs c => put_vars c gs) l [].

  (** [partition_by_shape], optimize.rs:659-686: [eq_shape] includes the key, so the key map only
      narrows the search *)
  Fixpoint put_shape (c : cand) (gs : list (list cand)) : list (list cand) :=
    match gs with
    | [] => [[c]]
    | (d :: l) :: gs' => if eq_shape d c then (d :: l ++ [c]) :: gs' else (d :: l) :: put_shape c gs'
    | [] :: gs' => [] :: put_shape c gs'
    end.
  Definition by_shape (l : list cand) : list (list cand) := fold_left (fun gs c => put_shape c gs) l [].

  (** ** Building a batch *)
  (** [next_unique_representations_var_name], optimize.rs:639-652; [None]: out of fuel *)
  Definition rep_name (i : nat) : string := ("__batch_reps_" ++ N_to_dec (N.of_nat i))%string.
  Fixpoint next_name (fuel : nat) (used : list string) (i : nat) : option (string * nat) :=
    match fuel with
    | 0 => None
    | S fuel' => if existsb (String.eqb (rep_name i)) used then next_name fuel' used (S i) else Some (rep_name i, S i)
    end.
  (** [collect_merge_paths], optimize.rs:195-207 *)
  Definition merge_paths (g : list cand) : list (list fseg) := groups (map k_path g) [].

  (** [HashMap::get] for [RepresentationsInputKey]: equal by [==]; keys that are equal but hash
      differently may or may not be found ([alike]) *)
  Variable alike : list sel -> list sel -> bool.
  Definition key : Type := (list sel * list rewrite * list (list fseg))%type.
  Definition key_eqb (a b : key) : bool :=
    let '(r, i, p) := a in
    let '(r', i', p') := b in
    sels_eqb r r' && alike r r' && list_eqb rewrite_eqb i i' && list_eqb path_eqb p p'.

  Record builder := mkbuilder {
    bd_used : list string; bd_next : nat; bd_keys : list (key * string);
    bd_items : list (string * string * list sel);       (* alias, variable, selection of [_entities] *)
    bd_aliases : list alias; bd_rep_vars : list string; bd_usages : list string }.
  Definition alias_name (i : nat) : string := ("_e" ++ N_to_dec (N.of_nat i))%string.
  (** [add_shape_group] with [get_or_create_representations_var], optimize.rs:129-255 *)
  Definition add_group (b : builder) (i : nat) (g : list cand) : option builder :=
    match g with
    | [] => None
    | r :: _ =>
        let usages := bd_usages b ++ flat_map k_usages g in
        let paths := merge_paths g in
        let k := (k_requires r, k_in r, paths) in
        match (match find (fun e => key_eqb k (fst e)) (bd_keys b) with
               | Some (_, name) => Some (name, bd_used b, bd_next b, bd_keys b, bd_rep_vars b)
               | None =>
                   match next_name (S (length (bd_used b))) (bd_used b) (bd_next b) with
                   | None => None
                   | Some (name, next) =>
                       Some (name, name :: bd_used b, next, bd_keys b ++ [(k, name)], bd_rep_vars b ++ [name])
                   end
               end) with
        | None => None
        | Some (name, used, next, keys, reps) =>
            Some (mkbuilder used next keys
                    (bd_items b ++ [(alias_name i, name, k_selection r)])
                    (bd_aliases b ++ [mkalias (alias_name i) name paths (k_requires r) (k_in r) (k_out r)])
                    reps usages)
        end
    end.
  Fixpoint add_groups (b : builder) (i : nat) (gs : list (list cand)) : option builder :=
    match gs with
    | [] => Some b
    | g :: gs' => match add_group b i g with Some b' => add_groups b' (S i) gs' | None => None end
    end.
  (** The operation of the batch: its fields, the representation variables ([ [_Any!]! ]) followed
      by the others, and the variables it uses. *)
  Record built := mkbuilt {
    bt_node : batch; bt_items : list (string * string * list sel); bt_reps : list string;
    bt_vars : list vardef; bt_usages : list string }.
  (** [build_batched_fetch_node] and [finish], optimize.rs:257-290,800-823 *)
  Definition build (gs : list (list cand)) (vars : list vardef) : option built :=
    match gs with
    | (c :: _) :: _ =>
        match add_groups (mkbuilder (map vd_name vars) 0 [] [] [] [] []) 0 gs with
        | None => None
        | Some b => Some (mkbuilt (mkbatch (k_id c) (k_service c) (bd_aliases b)) (bd_items b) (bd_rep_vars b) vars (bd_usages b))
        end
    | _ => None
    end.

  (** [optimize_parallel_node], optimize.rs:529-605.  [groups_of]: the groups to be batched. *)
  Definition groups_of (m : list (string * list cand)) : list (list cand * list vardef) :=
    flat_map (fun sl => if Nat.ltb (length (snd sl)) 2 then []
                        else filter (fun g => negb (Nat.ltb (length (fst g)) 2)) (by_variables (snd sl))) m.
  Fixpoint all_some {A} (l : list (option A)) : option (list A) :=
    match l with
    | [] => Some []
    | Some a :: l' => match all_some l' with Some r => Some (a :: r) | None => None end
    | None :: _ => None
    end.
  (** a replacement: the index kept, the batch, the indices taken in *)
  Definition replacement (g : list cand * list vardef) : option (nat * built * list nat) :=
    let gs := by_shape (fst g) in
    match gs, build gs (snd g) with
    | (c :: _) :: _, Some b => Some (k_index c, b, map k_index (concat gs))
    | _, _ => None
    end.
  Fixpoint lookup {A} (i : nat) (l : list (nat * A)) : option A :=
    match l with [] => None | (j, a) :: l' => if Nat.eqb i j then Some a else lookup i l' end.
  Definition apply_replacements (rs : list (nat * built * list nat)) (nodes : list node) : list node :=
    flat_map (fun t =>
      match lookup (fst t) (map fst rs) with
      | Some b => [NBatch (bt_node b)]
      | None => if existsb (fun r => existsb (Nat.eqb (fst t)) (snd r)) rs then [] else [snd t]
      end) (enumerate 0 nodes).
  Definition replacements_of (m : list (string * list cand)) : option (list (nat * built * list nat)) :=
    all_some (map replacement (groups_of m)).
  Definition optimize_parallel (nodes : list node) : option (list node) :=
    match replacements_of (by_subgraph (candidates nodes)) with
    | Some rs => Some (apply_replacements rs nodes)
    | None => None
    end.

  (** [optimize_node], optimize.rs:447-526; [None] is an error *)
  Fixpoint optimize_node (n : node) : option node :=
    match n with
    | NFetch _ | NBatch _ | NOther => Some n
    | NFlatten _ n' => match n' with NFetch _ => Some n | _ => None end
    | NSequence l =>
        match (fix go (l : list node) : option (list node) :=
                 match l with
                 | [] => Some []
                 | x :: l' => match optimize_node x, go l' with Some y, Some r => Some (y :: r) | _, _ => None end
                 end) l with
        | Some l' => Some (sequence (optimize_plan_sequence l'))
        | None => None
        end
    | NParallel l =>
        match (if forallb is_fetching l then Some l
               else (fix go (l : list node) : option (list node) :=
                       match l with
                       | [] => Some []
                       | x :: l' => match optimize_node x, go l' with Some y, Some r => Some (y :: r) | _, _ => None end
                       end) l) with
        | Some l' => match optimize_parallel (flatten_parallel l') with
                     | Some r => Some (parallel r)
                     | None => None
                     end
        | None => None
        end
    | NCondition v i e =>
        match (match i with None => Some None | Some x => match optimize_node x with Some y => Some (Some y) | None => None end end),
              (match e with None => Some None | Some x => match optimize_node x with Some y => Some (Some y) | None => None end end) with
        | Some i', Some e' => Some (NCondition v i' e')
        | _, _ => None
        end
    end.
  (** the tail of [build_query_plan_from_fetch_graph], query_plan.rs:144-171: [waves] are the nodes of
      each wave; a wave of several becomes a parallel node *)
  Definition wave_node (w : list node) : node := parallel w.
  Definition plan_of_waves (waves : list (list node)) : option node :=
    optimize_node (sequence (optimize_plan_sequence (map wave_node waves))).
End Shape.
