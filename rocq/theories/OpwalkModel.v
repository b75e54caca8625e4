(** Finding, for each leaf of an operation, the paths that can fetch it.
    Models bin/router/src/query_planner/planner/walker/mod.rs and utils.rs, with
    [SupergraphField::resolvable_in_graphs] of state/supergraph_state.rs.
    Left out: cancellation, which ends the walk with an error, and tracing. *)
From Coq Require Import String List NArith Bool Arith.
From Verif Require Import Ast QplanModel BestModel OverrideModel SafeModel PathModel.
Import ListNotations.
Local Open Scope list_scope.

(** [JoinFieldDirective], as far as it is looked at *)
Record join := mkjoin { j_graph : option string; j_external : bool; j_overridden : bool; j_label : option string }.
(** [SupergraphDefinition]: whether it is an interface, the graphs of its [@join__type]s, its fields with their [@join__field]s *)
Record sdef := mksdef { sd_interface : bool; sd_graphs : list string; sd_fields : list (string * list join) }.
Fixpoint lookup {A} (k : string) (l : list (string * A)) : option A :=
  match l with [] => None | (k', a) :: l' => if String.eqb k k' then Some a else lookup k l' end.
Definition has (k : string) (l : list string) : bool := existsb (String.eqb k) l.
(** state/supergraph_state.rs:1071-1093; a [HashSet] *)
Definition resolvable_in_graphs (joins : list join) (d : sdef) : list string :=
  nodup string_dec
    match joins with
    | [] => sd_graphs d
    | _ => flat_map (fun j => match j_graph j with
                              | Some id => if negb (j_external j) && negb (j_overridden j) && match j_label j with None => true | Some _ => false end
                                           then [id] else []
                              | None => []
                              end) joins
    end.

(** ** Unions with different members, mod.rs:420-515 *)
Definition same_union (a b : uctx) : bool := String.eqb (u_type a) (u_type b) && String.eqb (u_field a) (u_field b).
(** lines 450-472 *)
Definition members_per_graph (l : list opath) : list (string * list string) :=
  fold_left (fun acc p => match o_union p with
                          | Some u => if existsb (fun x => String.eqb (fst x) (u_graph u)) acc then acc else acc ++ [(u_graph u, u_members u)]
                          | None => acc
                          end) l [].
(** [min_by_key], which keeps the first of the smallest *)
Definition fewest (l : list (string * list string)) : list string :=
  match l with
  | [] => []
  | x :: l' => snd (fold_left (fun best y => if length (snd y) <? length (snd best) then y else best) l' x)
  end.
(** The early end when nothing is shared gives no paths, as the last step would. *)
Definition narrow (l : list opath) : list opath :=
  match l with
  | p :: _ :: _ =>
      match o_union p with
      | None => l
      | Some u =>
          if forallb (fun q => match o_union q with Some v => same_union v u | None => false end) l
          then let per := members_per_graph l in
               if length per <=? 1 then l
               else let shared := fold_left (fun s m => filter (fun x => has x m) s) (map snd per) (fewest per) in
                    flat_map (fun q => match o_union q with
                                       | Some v => if has (u_member v) shared
                                                   then [mkopath (o_root q) (o_segs q) (o_cost q) (Some (mkuctx (u_type v) (u_field v) (u_graph v) (u_member v) shared))]
                                                   else []
                                       | None => []
                                       end) l
          else l
      end
  | _ => l
  end.

Section Walk.
  Variable g : pgraph.
  Variable ctx : context.
  Variable objects_of : string -> option (list string).
  Variable ahash : option (list (string * gvalue)) -> N.
  Variable known : list tas -> tas -> bool.
  (** The definitions of the supergraph, and [resolve_graph_id] *)
  Variable defs : list (string * sdef).
  Variable subgraph_of : string -> option string.

  (** mod.rs:770-787 *)
  Definition resolvable (type field : string) : list string :=
    match lookup type defs with
    | Some d => match lookup field (sd_fields d) with
                | Some joins => flat_map (fun id => match subgraph_of id with Some s => [s] | None => [] end) (resolvable_in_graphs joins d)
                | None => []
                end
    | None => []
    end.
  Definition direct : opath -> target -> res (list opath) := direct_paths g ctx objects_of resolvable ahash known.
  Definition indirect (p : opath) (t : target) : res (list opath) := indirect_paths g ctx objects_of resolvable ahash known p t no_excluded.

  (** best_path.rs:42-71, for each path *)
  Fixpoint add_all (t : tracker) (l : list opath) : res tracker :=
    match l with
    | [] => Ok t
    | p :: l' => n <- node_at g (tail_of p);
                 match n_graph n with Some id => add_all (track t id p) l' | None => Panic end
    end.
  Fixpoint fold_res {A B} (f : A -> B -> res A) (l : list B) (a : A) : res A :=
    match l with [] => Ok a | x :: l' => a' <- f a x; fold_res f l' a' end.

  (** mod.rs:521-622: the paths to a field *)
  Definition explore_field (f : fsel) (local : bool) (ids : option (list string)) (t : tracker) (p : opath) : res tracker :=
    ds <- direct p (TField f None);
    t' <- add_all t ds;
    let to_leaf := match ds, fl_sub f with _ :: _, [] => true | _, _ => false end in
    if negb local && negb to_leaf then is <- indirect p (TField f ids); add_all t' is else Ok t'.
  Definition candidates (f : fsel) (local : bool) (paths : list opath) : res (list opath) :=
    ids <- match paths with
           | [] => Ok None
           | _ => if local then Ok None else target_ids g resolvable (fl_name f) paths
           end;
    t <- fold_res (explore_field f local ids) paths [];
    Ok (narrow (best_of t)).

  Definition last_seg (p : opath) : option pseg := match rev (o_segs p) with [] => None | s :: _ => Some s end.
  (** mod.rs:627-688: the fields to resolve from one path, for an interface that several subgraphs resolve *)
  Definition local_fields (name : string) (sub : list sel) (next : list opath) : res (list string) :=
    match sub with
    | [] => Ok []
    | _ =>
        moves <- each (fun p => match last_seg p with
                                | None => Ok None
                                | Some s => match nth_error (edges g) (sg_edge s) with
                                            | None => Panic
                                            | Some e => Ok match g_kind e with FieldMove _ _ _ => Some e | _ => None end
                                            end
                                end) next;
        match keep_some moves with
        | [] => Ok []
        | e :: _ =>
            head <- node_at g (g_head e);
            tail <- node_at g (g_tail e);
            match lookup (n_name head) defs with
            | None => Err (TypeNotFound (n_name head))
            | Some parent =>
                match lookup name (sd_fields parent) with
                | None => Err (FieldNotFound name (n_name head))
                | Some joins =>
                    match lookup (n_name tail) defs with
                    | None => Err (TypeNotFound (n_name tail))
                    | Some output =>
                        Ok (if sd_interface output && (1 <? length (resolvable_in_graphs joins parent))
                               && (1 <? length (filter (fun x => match x with SFrag _ _ _ _ => true | _ => false end) sub))
                            then map fst (sd_fields output) else [])
                    end
                end
            end
        end
    end.

  (** mod.rs:218-249: the type that the first path stands on *)
  Definition first_tail (paths : list opath) : res node :=
    match paths with
    | [] => Panic
    | p :: _ => match last_seg p with
                | None => Panic
                | Some s => match nth_error (edges g) (sg_edge s) with
                            | None => Err GraphFailure
                            | Some e => n <- node_at g (g_tail e); match n_graph n with Some _ => Ok n | None => Panic end
                            end
                end
    end.
  (** mod.rs:250-307 *)
  Definition self_step (tc : string) (c : option cond) (paths : list opath) : res (list opath) :=
    match c with
    | None => Ok paths
    | Some c => each (fun p => r <- self_path g ctx objects_of resolvable ahash known p tc c;
                               match r with Some q => Ok q | None => Err (NoPathsFound tc) end) paths
    end.
  (** mod.rs:313-365 *)
  Definition type_step (tc : string) (c : option cond) (locals : list string) (paths : list opath) : res (list opath) :=
    l <- each (fun p =>
      ds <- direct p (TType tc c);
      is <- match locals with [] => indirect p (TType tc c) | _ => Ok [] end;
      Ok (firstn 1 ds ++ firstn 1 is)) paths;
    Ok (concat l).
  Definition typename : fsel := mkfsel "__typename" None None None None [].
  (** mod.rs:367-407 *)
  Definition typename_step (paths : list opath) : res (list opath) :=
    t <- fold_res (fun t p => ds <- direct p (TField typename None);
                              match ds with [] => Err (NoPathsFound "__typename") | _ => add_all t ds end) paths [];
    match best_of t with [] => Err (NoPathsFound "__typename") | l => Ok (find_best_paths l) end.

  Definition outcome : Type := list (sel * list opath) * list (list opath).
  (** mod.rs:107-418,521-756: what is left to resolve, and the paths of the leaves *)
  Fixpoint process (x : sel) (paths : list opath) (locals : list string) {struct x} : res outcome :=
    let process_all := fix process_all (l : list sel) (next : list opath) : res outcome :=
      match l with
      | [] => Ok ([], [])
      | y :: l' => a <- process y next locals; b <- process_all l' next; Ok (fst a ++ fst b, snd a ++ snd b)
      end in
    match x with
    | SSpread _ => Ok ([], [])
    | SFrag tc inc skip sub =>
        n <- first_tail paths;
        if String.eqb (n_name n) tc
        then next <- self_step tc (cond_of inc skip) paths; process_all sub next
        else next <- type_step tc (cond_of inc skip) locals paths;
             match next with
             | [] => leaf <- typename_step paths; Ok ([], [leaf])
             | _ => process_all sub next
             end
    | SField name alias args inc skip _ sub =>
        next <- candidates (mkfsel name alias args inc skip sub) (has name locals) paths;
        match next with
        | [] => Err (NoPathsFound name)
        | _ =>
            shared <- local_fields name sub next;
            valid <- match shared with
                     | [] => Ok next
                     | _ =>
                         let children := fix children (l : list sel) (p : opath) : res bool :=
                           match l with
                           | [] => Ok true
                           | y :: l' => match process y [p] shared with
                                        | Ok ([], []) => Ok false
                                        | Ok _ => children l' p
                                        | Err _ => Ok false
                                        | Panic => Panic
                                        | Fuel => Fuel
                                        end
                           end in
                         l <- each (fun p => b <- children sub p; Ok (if b then Some p else None)) next;
                         Ok (keep_some l)
                     end;
            match sub with
            | [] => Ok ([], [find_best_paths valid])
            | _ => match valid with
                   | [] => Err (NoPathsFound name)
                   | _ => Ok (map (fun y => (y, valid)) sub, [])
                   end
            end
        end
    end.

  (** ** The walk, mod.rs:49-105 *)
  Fixpoint resolve (fuel : nat) (stack : list (sel * list opath)) (leaves : list (list opath)) : res (list (list opath)) :=
    match stack with
    | [] => Ok leaves
    | (x, paths) :: stack' =>
        match fuel with
        | 0 => Fuel
        | S n => r <- process x paths []; resolve n (fst r ++ stack') (leaves ++ snd r)
        end
    end.
  (** path.rs:72-82,117-137 *)
  Definition entry (x : nat * gedge) : opath :=
    let cost := edge_cost (g_kind (snd x)) in
    mkopath (g_head (snd x)) [mkpseg (fst x) (g_tail (snd x)) cost None None None] cost None.
  (** utils.rs:10-26: in the order of the edges *)
  Definition entrypoints (root : nat) : list opath := map entry (rev (edges_from g root)).
  Definition walk (root : option nat) (sels : list sel) : res (list (list (list opath))) :=
    match root with
    | None => Err MissingRootType
    | Some r => each (fun x => resolve (weight x) [(x, entrypoints r)] []) sels
    end.
End Walk.
