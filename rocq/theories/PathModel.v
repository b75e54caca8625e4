(** Searching the graph of subgraph types for paths to a field or a type.
    Models bin/router/src/query_planner/planner/walker/{pathfinder,path,best_path,excluded}.rs,
    graph/edge.rs and the part of graph/node.rs that the search looks at.
    Left out: cancellation, which ends the search with an error, and tracing. Costs are unbounded. *)
From Coq Require Import String List NArith Bool Arith.
From Verif Require Import Ast QplanModel BestModel OverrideModel SafeModel.
Import ListNotations.
Local Open Scope list_scope.

(** [TypeAwareSelection], ast/type_aware_selection.rs:5-9 *)
Record tas := mktas { ts_type : string; ts_sels : list sel }.
(** [Node], graph/node.rs:6-57: the name, the subgraph (none at the roots) and the data of [UnionMembers] *)
Record umembers := mkum { um_type : string; um_field : string; um_object : string; um_members : list string }.
Record node := mknode { n_name : string; n_graph : option string; n_union : option umembers }.
(** [Edge], graph/edge.rs:14-52,161-187 *)
Inductive kind :=
| Entrypoint (subgraph : string)
| FieldMove (name : string) (requires : option tas) (m : OverrideModel.move)
| ReentryMove (name : string)
| EntityMove (requires : tas)
| AbstractMove (type : string)
| Selfie (type : string)
| InterfaceObjectMove (object : string) (requires : tas).
Record gedge := mkgedge { g_head : nat; g_tail : nat; g_kind : kind }.
Record pgraph := mkpgraph { nodes : list node; edges : list gedge }.

(** ast/selection_item.rs:127-137 *)
Fixpoint item_cost (x : sel) : N :=
  let all := fix all (l : list sel) : N := match l with [] => 0%N | y :: l' => (item_cost y + all l')%N end in
  match x with
  | SField _ _ _ _ _ _ sub => (1 + all sub)%N
  | SFrag _ _ _ sub => (1 + all sub)%N
  | SSpread _ => 1%N
  end.
(** ast/selection_set.rs:62-70 *)
Definition set_cost (l : list sel) : N := fold_left (fun c x => (c + item_cost x)%N) l 1%N.
(** edge.rs:253-260 *)
Definition requirements (k : kind) : option tas :=
  match k with
  | EntityMove r | InterfaceObjectMove _ r => Some r
  | FieldMove _ r _ => r
  | _ => None
  end.
(** edge.rs:262-274 *)
Definition edge_cost (k : kind) : N :=
  ((match k with FieldMove _ _ _ => 1 | _ => 1000 end) + match requirements k with Some r => set_cost (ts_sels r) | None => 0 end)%N.

(** ** Paths, walker/path.rs *)
(** [UnionContext], lines 43-50 *)
Record uctx := mkuctx { u_type : string; u_field : string; u_graph : string; u_member : string; u_members : list string }.
Definition attrs : Type := option string * option (list (string * gvalue)).
(** [PathSegment] and [OperationPath], lines 31-41,86-95; segments are listed from the first to the last *)
Record pseg := mkpseg { sg_edge : nat; sg_tail : nat; sg_cost : N; sg_tree : option tree; sg_attrs : option attrs; sg_cond : option cond }.
Record opath := mkopath { o_root : nat; o_segs : list pseg; o_cost : N; o_union : option uctx }.
(** lines 216-220 *)
Definition tail_of (p : opath) : nat := last (map sg_tail (o_segs p)) (o_root p).

(** [FieldSelection] and [NavigationTarget], pathfinder.rs:78-86 *)
Record fsel := mkfsel { fl_name : string; fl_alias : option string; fl_args : option (list (string * gvalue));
                        fl_include : option string; fl_skip : option string; fl_sub : list sel }.
Inductive target := TField (f : fsel) (ids : option (list string)) | TType (name : string) (c : option cond).
Definition attrs_of (t : target) : option attrs :=
  match t with TField f _ => Some (fl_alias f, fl_args f) | TType _ _ => None end.
Definition condition_of (t : target) : option cond :=
  match t with TField f _ => cond_of (fl_include f) (fl_skip f) | TType _ c => c end.

(** lines 61-69,170-197 *)
Definition next_union (g : pgraph) (k : kind) (tail : nat) (u : option uctx) : option uctx :=
  match k with
  | FieldMove _ _ _ =>
      match nth_error (nodes g) tail with
      | Some n => match n_union n, n_graph n with
                  | Some d, Some id => Some (mkuctx (um_type d) (um_field d) id (um_object d) (um_members d))
                  | _, _ => None
                  end
      | None => None
      end
  | AbstractMove m => match u with Some c => Some (mkuctx (u_type c) (u_field c) (u_graph c) m [m]) | None => None end
  | EntityMove _ | InterfaceObjectMove _ _ | ReentryMove _ => None
  | _ => u
  end.
(** lines 139-205 *)
Definition advance (g : pgraph) (p : opath) (i : nat) (e : gedge) (req : option tree) (t : target) : opath :=
  let cost := (o_cost p + edge_cost (g_kind e))%N in
  mkopath (o_root p) (o_segs p ++ [mkpseg i (g_tail e) cost req (attrs_of t) (condition_of t)]) cost
          (next_union g (g_kind e) (g_tail e) (o_union p)).
(** lines 53-55,207-214 *)
Definition can_resolve_union_member (p : opath) (m : string) : bool :=
  match o_union p with None => true | Some c => existsb (String.eqb m) (u_members c) end.

(** lines 283-349: how many segments are the same, by their edges *)
Fixpoint common (a b : list pseg) : nat :=
  match a, b with
  | x :: a', y :: b' => if Nat.eqb (sg_edge x) (sg_edge y) then S (common a' b') else 0
  | _, _ => 0
  end.
Definition continuation (self other : opath) : opath :=
  let n := common (o_segs self) (o_segs other) in
  let shared := firstn n (o_segs other) in
  let root := last (map sg_tail shared) (o_root self) in
  let offset := last (map sg_cost shared) 0%N in
  let segs := map (fun s => mkpseg (sg_edge s) (sg_tail s) (sg_cost s - offset)%N (sg_tree s) (sg_attrs s) (sg_cond s)) (skipn n (o_segs other)) in
  mkopath root segs (last (map sg_cost segs) 0%N) (o_union other).

(** ** Best paths, walker/best_path.rs *)
(** lines 14-32; 0 stands for no cost *)
Definition best_step (acc : N * list opath) (p : opath) : N * list opath :=
  if (fst acc =? 0)%N then (o_cost p, [p])
  else if (fst acc =? o_cost p)%N then (fst acc, snd acc ++ [p])
  else if (o_cost p <? fst acc)%N then (o_cost p, [p])
  else acc.
Definition find_best_paths (l : list opath) : list opath := snd (fold_left best_step l (0%N, [])).
(** [BestPathTracker], lines 7-12,34-80: a [BTreeMap], kept in the order of the keys *)
Definition tracker : Type := list (string * (list opath * N)).
Fixpoint track (t : tracker) (id : string) (p : opath) : tracker :=
  match t with
  | [] => [(id, ([p], o_cost p))]
  | (k, (l, c)) :: t' =>
      match String.compare id k with
      | Eq => (k, match N.compare (o_cost p) c with
                  | Lt => ([p], o_cost p)
                  | Eq => (l ++ [p], c)
                  | Gt => (l, c)
                  end) :: t'
      | Lt => (id, ([p], o_cost p)) :: t
      | Gt => (k, (l, c)) :: track t' id p
      end
  end.
Definition best_of (t : tracker) : list opath := flat_map (fun x => fst (snd x)) t.

(** ** The search, walker/pathfinder.rs *)
(** [WalkOperationError], walker/error.rs; the last four are of the walk over an operation *)
Inductive werr :=
| NodeNotFound (n : nat)
| TailMissingInfo (n : nat)
| GraphFailure
| NoPathsFound (item : string)
| TypeNotFound (type : string)
| FieldNotFound (field type : string)
| MissingRootType.
Inductive res (A : Type) := Ok (a : A) | Err (e : werr) | Panic | Fuel.
Arguments Ok {A}. Arguments Err {A}. Arguments Panic {A}. Arguments Fuel {A}.
Definition bind {A B} (r : res A) (f : A -> res B) : res B :=
  match r with Ok a => f a | Err e => Err e | Panic => Panic | Fuel => Fuel end.
Notation "x <- r ; k" := (bind r (fun x => k)) (at level 60, r at next level, right associativity).
Fixpoint each {A B} (f : A -> res B) (l : list A) : res (list B) :=
  match l with
  | [] => Ok []
  | x :: l' => y <- f x; ys <- each f l'; Ok (y :: ys)
  end.

(** [ExcludedFromLookup], excluded.rs *)
Record excluded := mkex { ex_graphs : list string; ex_reqs : list tas }.
Definition no_excluded : excluded := mkex [] [].
(** petgraph gives the edges of a node from the newest to the oldest. *)
Definition edges_from (g : pgraph) (n : nat) : list (nat * gedge) :=
  rev (filter (fun x => Nat.eqb (g_head (snd x)) n) (combine (seq 0 (length (edges g))) (edges g))).
Definition node_at (g : pgraph) (n : nat) : res node :=
  match nth_error (nodes g) n with Some x => Ok x | None => Err (NodeNotFound n) end.

Fixpoint weight (x : sel) : nat :=
  let all := fix all (l : list sel) : nat := match l with [] => 0 | y :: l' => weight y + all l' end in
  match x with
  | SField _ _ _ _ _ _ sub => S (all sub)
  | SFrag _ _ _ sub => S (all sub)
  | SSpread _ => 1
  end.
Definition weights (l : list sel) : nat := list_sum (map weight l).

Definition best_edge (e : gedge) : BestModel.edge :=
  mkedge (g_tail e) (match g_kind e with Entrypoint _ => true | _ => false end).
Definition to_best (p : opath) : BestModel.path :=
  mkpath (o_root p) (map (fun s => mkseg (sg_edge s) (sg_tree s) (sg_attrs s) (sg_cond s)) (o_segs p)).

Section Search.
  Variable g : pgraph.
  Variable ctx : context.
  (** [interface_to_object_types] of the supergraph *)
  Variable objects_of : string -> option (list string).
  (** The subgraphs in which a field of a type can be resolved: [resolvable_in_graphs] of the definition, when there is one *)
  Variable resolvable : string -> string -> list string.
  (** [arguments_hash] *)
  Variable ahash : option (list (string * gvalue)) -> N.
  (** [HashSet<&TypeAwareSelection>::contains] *)
  Variable known : list tas -> tas -> bool.

  (** lines 150-163,922-930 *)
  Definition type_matches (current cond : string) : bool :=
    String.eqb current cond || match objects_of cond with Some l => existsb (String.eqb current) l | None => false end.

  (** *** [RequirementCycleChecker], lines 878-1006 *)
  Fixpoint any {A} (f : A -> option bool) (l : list A) : option bool :=
    match l with
    | [] => Some false
    | x :: l' => match f x with Some true => Some true | Some false => any f l' | None => None end
    end.
  Definition same_field (n : string) (a : option (list (string * gvalue))) (n' : string) (a' : option (list (string * gvalue))) : bool :=
    String.eqb n' n && N.eqb (ahash a') (ahash a).
  Section Cycle.
    Variable current : string.
    (** lines 961-971 and 973-1005; [None]: out of fuel *)
    Definition sets_overlap (items : sel -> sel -> option bool) (requirement target : list sel) : option bool :=
      match target, requirement with
      | [], _ | _, [] => Some true
      | _, _ => any (fun t => any (fun r => items r t) requirement) target
      end.
    Fixpoint items_overlap (fuel : nat) (requirement target : sel) : option bool :=
      match fuel with
      | 0 => None
      | S n =>
          match target, requirement with
          | SField tn _ ta _ _ _ ts, SField rn _ ra _ _ _ rs =>
              if same_field tn ta rn ra then sets_overlap (items_overlap n) ts rs else Some false
          | SField _ _ _ _ _ _ _, SFrag rt _ _ rs =>
              if type_matches current rt then any (fun x => items_overlap n x target) rs else Some false
          | SFrag tc _ _ ts, SField _ _ _ _ _ _ _ =>
              if type_matches current tc then any (fun x => items_overlap n requirement x) ts else Some false
          | SFrag tc _ _ ts, SFrag rt _ _ rs =>
              if type_matches current tc && type_matches current rt then sets_overlap (items_overlap n) rs ts else Some false
          | _, _ => Some false
          end
      end.
    (** lines 936-959 *)
    Fixpoint item_depends (fuel : nat) (f : fsel) (r : sel) : option bool :=
      match r with
      | SField rn _ ra _ _ _ rs =>
          if same_field rn ra (fl_name f) (fl_args f) then sets_overlap (items_overlap fuel) rs (fl_sub f) else Some false
      | SFrag tc _ _ sub =>
          if type_matches current tc
          then (fix go (l : list sel) : option bool :=
                  match l with
                  | [] => Some false
                  | x :: l' => match item_depends fuel f x with Some true => Some true | Some false => go l' | None => None end
                  end) sub
          else Some false
      | SSpread _ => Some false
      end.
    (** lines 907-920 *)
    Definition depends (r : tas) (f : fsel) : option bool :=
      if type_matches current (ts_type r)
      then any (item_depends (S (weights (ts_sels r) + weights (fl_sub f))) f) (ts_sels r)
      else Some false.
  End Cycle.

  (** [can_satisfy_edge] for an edge, a path, what is excluded and whether only direct edges may be used *)
  Definition satisfier : Type := nat -> gedge -> opath -> excluded -> bool -> res (option (list opath)).

  (** [QueryTreeNode::from_paths] *)
  Definition tree_of (paths : list opath) : res (option tree) :=
    match from_paths (map best_edge (edges g)) (map to_best paths) None with
    | Done t => Ok t
    | Failed _ => Err GraphFailure
    | Panicked => Panic
    end.

  Section Finders.
    Variable sat : satisfier.

    (** lines 374-411 *)
    Definition try_advance (p : opath) (x : nat * gedge) (t : target) : res (option opath) :=
      r <- sat (fst x) (snd x) p no_excluded false;
      match r with
      | None => Ok None
      | Some paths => tr <- tree_of paths; Ok (Some (advance g p (fst x) (snd x) tr t))
      end.
    Definition leads_to (t : target) (k : kind) : bool :=
      match t, k with
      | TField f _, FieldMove n _ _ | TField f _, ReentryMove n => String.eqb n (fl_name f)
      | TType n _, AbstractMove m => String.eqb m n
      | TType n _, InterfaceObjectMove m _ => String.eqb m n
      | _, _ => false
      end.
    Definition out_of_scope (p : opath) (t : target) : bool :=
      match t with TType n _ => negb (can_resolve_union_member p n) | TField _ _ => false end.
    Fixpoint keep_some {A} (l : list (option A)) : list A :=
      match l with [] => [] | Some x :: l' => x :: keep_some l' | None :: l' => keep_some l' end.
    (** lines 465-511 *)
    Definition find_direct_paths (p : opath) (t : target) : res (list opath) :=
      if out_of_scope p t then Ok []
      else l <- each (fun x => try_advance p x t) (filter (fun x => leads_to t (g_kind (snd x))) (edges_from g (tail_of p)));
           Ok (keep_some l).

    Definition moves (k : kind) : bool := match k with EntityMove _ | InterfaceObjectMove _ _ => true | _ => false end.
    Definition work : Type := list string * list tas * opath.
    (** The checks of lines 221-290; [true]: the edge is tried *)
    Definition worth_trying (t : target) (source_graph source_type : string) (visited : list string) (reqs : list tas)
                            (e : gedge) (id : string) : res bool :=
      if negb (match t with TField _ (Some ids) => existsb (String.eqb id) ids | _ => true end) then Ok false
      else if existsb (String.eqb id) visited then Ok false
      else if String.eqb id source_graph && negb (match g_kind e with InterfaceObjectMove _ _ => true | _ => false end) then Ok false
      else match requirements (g_kind e) with
           | None => Ok true
           | Some r =>
               d <- match t with
                    | TField f _ => match depends source_type r f with Some b => Ok b | None => Fuel end
                    | TType _ _ => Ok false
                    end;
               Ok (negb d && negb (known reqs r))
           end.
    (** lines 213-356, for one edge *)
    Definition explore_edge (t : target) (source_graph source_type : string) (visited : list string) (reqs : list tas) (p : opath)
                            (acc : list work * tracker) (x : nat * gedge) : res (list work * tracker) :=
      n <- node_at g (g_tail (snd x));
      match n_graph n with
      | None => Panic
      | Some id =>
          b <- worth_trying t source_graph source_type visited reqs (snd x) id;
          if negb b then Ok acc
          else
            r <- sat (fst x) (snd x) p (mkex (id :: visited) reqs) false;
            match r with
            | None => Ok acc
            | Some paths =>
                tr <- tree_of paths;
                let next := advance g p (fst x) (snd x) tr t in
                direct <- find_direct_paths next t;
                match direct with
                | [] =>
                    let reqs' := match requirements (g_kind (snd x)) with Some r => r :: reqs | None => reqs end in
                    Ok ((id :: visited, reqs', next) :: fst acc, snd acc)
                | _ =>
                    ids <- each (fun d => m <- node_at g (tail_of d); match n_graph m with Some i => Ok i | None => Panic end) direct;
                    Ok (fst acc, fold_left (fun tk y => track tk (fst y) (snd y)) (combine ids direct) (snd acc))
                end
            end
      end.
    Fixpoint explore_edges (t : target) (source_graph source_type : string) (visited : list string) (reqs : list tas) (p : opath)
                           (l : list (nat * gedge)) (acc : list work * tracker) : res (list work * tracker) :=
      match l with
      | [] => Ok acc
      | x :: l' => acc' <- explore_edge t source_graph source_type visited reqs p acc x;
                   explore_edges t source_graph source_type visited reqs p l' acc'
      end.
    (** lines 194-357 *)
    Fixpoint explore (fuel : nat) (t : target) (source_graph source_type : string) (stack : list work) (seen : list nat) (tk : tracker) : res tracker :=
      match stack with
      | [] => Ok tk
      | (visited, reqs, p) :: stack' =>
          match fuel with
          | 0 => Fuel
          | S n =>
              if existsb (Nat.eqb (tail_of p)) seen then explore n t source_graph source_type stack' seen tk
              else
                r <- explore_edges t source_graph source_type visited reqs p
                       (filter (fun x => moves (g_kind (snd x))) (edges_from g (tail_of p))) (stack', tk);
                explore n t source_graph source_type (fst r) (tail_of p :: seen) (snd r)
          end
      end.
    (** lines 165-370 *)
    Definition find_indirect_paths (p : opath) (t : target) (ex : excluded) : res (list opath) :=
      n <- node_at g (tail_of p);
      match n_graph n with
      | None => Err (TailMissingInfo (tail_of p))
      | Some source_graph =>
          if out_of_scope p t then Ok []
          else
            tk <- explore (S (length (edges g))) t source_graph (n_name n) [(ex_graphs ex, ex_reqs ex, p)] [] [];
            Ok (best_of tk)
      end.

    (** [field_target_subgraph_ids], walker/mod.rs:757-793 *)
    Definition target_ids (name : string) (paths : list opath) : res (option (list string)) :=
      types <- each (fun p => n <- node_at g (tail_of p); Ok (n_name n)) paths;
      match flat_map (fun t => resolvable t name) types with
      | [] => Ok None
      | l => Ok (Some l)
      end.
    (** lines 700-764 *)
    Definition field_requirement (paths : list opath) (f : fsel) (ex : excluded) (only_direct : bool) : res (list opath) :=
      ids <- target_ids (fl_name f) paths;
      found <- each (fun p =>
        direct <- find_direct_paths p (TField f None);
        let to_leaf := match direct, fl_sub f with _ :: _, [] => true | _, _ => false end in
        indirect <- (if negb only_direct && negb to_leaf then find_indirect_paths p (TField f ids) ex else Ok []);
        Ok (direct, indirect)) paths;
      Ok (flat_map fst found ++ flat_map snd found).
    (** lines 794-850 *)
    Definition fragment_requirement (paths : list opath) (tc : string) (ex : excluded) : res (list opath) :=
      direct <- each (fun p =>
        n <- node_at g (tail_of p);
        if type_matches (n_name n) tc then Ok [p] else find_direct_paths p (TType tc None)) paths;
      indirect <- each (fun p => find_indirect_paths p (TType tc None) ex) paths;
      Ok (concat direct ++ concat indirect).
    (** lines 592-684,766-788,852-874: the queue of requirements, the one to be taken next first *)
    Fixpoint require (fuel : nat) (self : opath) (ex : excluded) (only_direct : bool) (queue : list (list opath * sel)) (acc : list opath) : res (option (list opath)) :=
      match queue with
      | [] => Ok (Some acc)
      | (paths, x) :: queue' =>
          match fuel with
          | 0 => Fuel
          | S n =>
              match x with
              | SField name alias args inc skip _ sub =>
                  next <- field_requirement paths (mkfsel name alias args inc skip sub) ex only_direct;
                  match next with
                  | [] => Ok None
                  | _ =>
                      let acc' := match sub with [] => acc ++ map (continuation self) (find_best_paths next) | _ => acc end in
                      require n self ex only_direct (queue' ++ rev (map (fun y => (next, y)) sub)) acc'
                  end
              | SFrag tc _ _ sub =>
                  next <- fragment_requirement paths tc ex;
                  match next with
                  | [] => Ok None
                  | _ => require n self ex only_direct (queue' ++ rev (map (fun y => (next, y)) sub)) acc
                  end
              | SSpread _ => require n self ex only_direct queue' acc
              end
          end
      end.
    (** lines 563-684 *)
    Definition check_edge (e : gedge) (p : opath) (ex : excluded) (only_direct : bool) : res (option (list opath)) :=
      if match g_kind e with FieldMove _ _ m => negb (satisfies m ctx) | _ => false end then Ok None
      else match requirements (g_kind e) with
           | None => Ok (Some [])
           | Some r => require (weights (ts_sels r)) p ex only_direct (map (fun x => ([p], x)) (ts_sels r)) []
           end.
  End Finders.

  (** lines 538-561; [active] are the edges being checked, with the tails of the paths they are checked for *)
  Fixpoint can_satisfy_edge (fuel : nat) (active : list (nat * nat)) : satisfier := fun i e p ex only_direct =>
    match fuel with
    | 0 => Fuel
    | S n =>
        if existsb (fun a => Nat.eqb (fst a) (tail_of p) && Nat.eqb (snd a) i) active then Ok None
        else check_edge (can_satisfy_edge n ((tail_of p, i) :: active)) e p ex only_direct
    end.

  (** The entry points, lines 136-147,414-462,519-535 *)
  Definition satisfied : satisfier := can_satisfy_edge (S (length (edges g))) [].
  Definition direct_paths (p : opath) (t : target) : res (list opath) := find_direct_paths satisfied p t.
  Definition indirect_paths (p : opath) (t : target) (ex : excluded) : res (list opath) := find_indirect_paths satisfied p t ex.
  Fixpoint first_some {A B} (f : A -> res (option B)) (l : list A) : res (option B) :=
    match l with
    | [] => Ok None
    | x :: l' => r <- f x; match r with Some y => Ok (Some y) | None => first_some f l' end
    end.
  (** [None]: [NoPathsFound] *)
  Definition self_path (p : opath) (name : string) (c : cond) : res (option opath) :=
    first_some (fun x => try_advance satisfied p x (TType name (Some c)))
               (filter (fun x => match g_kind (snd x) with Selfie t => String.eqb t name | _ => false end) (edges_from g (tail_of p))).
End Search.
