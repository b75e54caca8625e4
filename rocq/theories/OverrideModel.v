(** Progressive overrides: the edges they guard, the evaluation of labels, and the plan cache.
    Models query_planner/graph/edge.rs:33-147 and 212-236, the field edges of
    query_planner/graph/mod.rs:566-933 and 1090-1200, query_planner/state/supergraph_state.rs:337-357,
    pipeline/progressive_override.rs:60-160 and 172-265, and pipeline/query_plan.rs:80-140 and 184-189. *)
From Coq Require Import String List NArith Bool.
From Verif Require Import StrOrd RequiresModel.
Import ListNotations.
Local Open Scope N_scope.
Local Open Scope list_scope.

(** edge.rs:140-147; how [percent(..)] is read as a number is left out. *)
Inductive label := Custom (flag : string) | Percentage (p : N).
Definition scale : N := 100000000.

(** [JoinFieldDirective], federation_spec/join_field.rs:11-20.  [jf_provides] is the number of
    fields the parsed [provides] selects. *)
Record join_field := { jf_graph : option string; jf_override : option string; jf_label : option label;
  jf_external : bool; jf_requires : bool; jf_provides : option nat }.
(** A field: its directives; the number of members of its type in a subgraph when that is a union;
    the number of other subgraphs that can be entered through it when its type is a root type. *)
Record fdef := { f_joins : list join_field; f_union : option (string -> nat); f_entries : string -> nat }.
(** A type: the subgraphs that define it, whether it has a [__typename] there, its fields. *)
Record tdef := { t_graphs : list string; t_typename : string -> bool; t_fields : list fdef }.

(** [FieldMove], edge.rs:33-45, and the re-entry move, which no override guards. *)
Record move := { m_label : option label; m_overridden_by : option (string * option label) }.
Inductive edge := FieldMove (m : move) | ReentryMove.

(** [PlannerOverrideContext], edge.rs:95-130, made from [RequestOverrideContext] unchanged. *)
Record context := { active_flags : list string; percentage_value : N }.
Definition is_flag_active (c : context) (flag : string) : bool := existsb (String.eqb flag) (active_flags c).
Definition is_in_range (c : context) (p : N) : bool := percentage_value c <? p.

(** edge.rs:77-90 *)
Definition check_progressive_override (l : label) (c : context) (overriding : bool) : bool :=
  match l with
  | Custom flag => eqb overriding (is_flag_active c flag)
  | Percentage p => eqb overriding (is_in_range c p)
  end.
(** edge.rs:56-75 *)
Definition satisfies (m : move) (c : context) : bool :=
  match m_overridden_by m with
  | Some (_, Some l) => check_progressive_override l c false
  | Some (_, None) => false
  | None => match m_label m with
            | Some l => check_progressive_override l c true
            | None => true
            end
  end.
(** planner/walker/pathfinder.rs:575-581 *)
Definition usable (e : edge) (c : context) : bool :=
  match e with FieldMove m => satisfies m c | ReentryMove => true end.

Section Graph.
(** [resolve_graph_id]: from the name in the supergraph's enum to the subgraph's name. *)
Context (resolve : string -> string).

(** graph/mod.rs:655-671; [None] is the panic of [expect]. *)
Fixpoint overridden_by (name : string) (joins : list join_field) : option (option (string * option label)) :=
  match joins with
  | [] => Some None
  | jf :: rest =>
      match jf_override jf with
      | Some from =>
          if String.eqb from name
          then match jf_graph jf with
               | Some g => Some (Some (resolve g, jf_label jf))
               | None => None
               end
          else overridden_by name rest
      | None => overridden_by name rest
      end
  end.
(** edge.rs:212-236 *)
Definition create_field_move (jf : option join_field) (ob : option (string * option label)) : edge :=
  FieldMove {| m_label := match jf with Some jf => jf_label jf | None => None end; m_overridden_by := ob |}.
(** federation_spec/mod.rs:169-200, in a subgraph that defines the type *)
Definition in_graph (g : string) (jf : join_field) : bool :=
  match jf_graph jf with Some g' => String.eqb g' g | None => false end.
Definition availability (g : string) (f : fdef) : bool * option join_field :=
  match f_joins f with
  | [] => (true, None)
  | joins => match find (in_graph g) joins with
             | Some jf => (true, Some jf)
             | None => (false, None)
             end
  end.
(** graph/mod.rs:634-931 *)
Definition field_edges (g : string) (f : fdef) : option (list edge) :=
  let '(available, jf) := availability g f in
  if negb available then Some []
  else match overridden_by (resolve g) (f_joins f) with
       | None => None
       | Some ob =>
           if match jf with Some jf => jf_external jf && negb (jf_requires jf) | None => false end then Some []
           else match f_union f with
                | Some members =>
                    Some (flat_map (fun _ => [create_field_move None None; create_field_move None ob])
                            (seq 0 (members g)))
                | None => Some (create_field_move jf ob :: repeat ReentryMove (f_entries f g))
                end
       end.
(** graph/mod.rs:1098-1200 *)
Definition viewed_edges (g : string) (f : fdef) : list edge :=
  flat_map (fun jf => match jf_provides jf with
                      | Some n => if in_graph g jf
                                  then create_field_move (Some jf) None :: repeat (create_field_move None None) n
                                  else []
                      | None => []
                      end) (f_joins f).

Fixpoint collect {A B} (k : A -> option (list B)) (l : list A) : option (list B) :=
  match l with
  | [] => Some []
  | a :: l' => match k a, collect k l' with Some x, Some y => Some (x ++ y) | _, _ => None end
  end.
Definition type_edges (t : tdef) : option (list edge) :=
  collect (fun g =>
    match collect (field_edges g) (t_fields t) with
    | Some es => Some ((if t_typename t g then [create_field_move None None] else []) ++ es
                       ++ flat_map (viewed_edges g) (t_fields t))
    | None => None
    end) (t_graphs t).
(** All edges whose use can depend on the request. *)
Definition graph_edges (ts : list tdef) : option (list edge) := collect type_edges ts.
End Graph.

(** supergraph_state.rs:337-357; a set is a list here, the maps made from it are sorted. *)
Definition labels (ts : list tdef) : list label :=
  flat_map (fun t => flat_map (fun f => flat_map (fun jf =>
    match jf_label jf with Some l => [l] | None => [] end) (f_joins f)) (t_fields t)) ts.
Definition flags (ts : list tdef) : list string :=
  flat_map (fun l => match l with Custom s => [s] | Percentage _ => [] end) (labels ts).
Definition percentages (ts : list tdef) : list N :=
  flat_map (fun l => match l with Custom _ => [] | Percentage p => [p] end) (labels ts).

(** [BTreeMap::insert] *)
Fixpoint finsert (k : string) (b : bool) (m : list (string * bool)) : list (string * bool) :=
  match m with
  | [] => [(k, b)]
  | (k', b') :: m' => match String.compare k k' with
                      | Lt => (k, b) :: m
                      | Eq => (k, b) :: m'
                      | Gt => (k', b') :: finsert k b m'
                      end
  end.
Fixpoint pinsert (k : N) (b : bool) (m : list (N * bool)) : list (N * bool) :=
  match m with
  | [] => [(k, b)]
  | (k', b') :: m' => match N.compare k k' with
                      | Lt => (k, b) :: m
                      | Eq => (k, b) :: m'
                      | Gt => (k', b') :: pinsert k b m'
                      end
  end.
(** [StableOverrideContext::new], progressive_override.rs:138-160 *)
Record stable := { s_flags : list (string * bool); s_outcomes : list (N * bool) }.
Definition stable_of (ts : list tdef) (c : context) : stable :=
  {| s_flags := fold_left (fun m k => finsert k (is_flag_active c k) m) (flags ts) [];
     s_outcomes := fold_left (fun m p => pinsert p (is_in_range c p) m) (percentages ts) [] |}.

(** query_plan.rs:184-189: the bytes fed to the hash. *)
Definition bit (b : bool) : N := if b then 1 else 0.
Definition enc_flags (l : list (string * bool)) : list N :=
  flat_map (fun kb => str_bytes (fst kb) ++ [bit (snd kb)]) l.
Definition enc_outcomes (l : list (N * bool)) : list N :=
  flat_map (fun pb => le 8 (fst pb) ++ [bit (snd pb)]) l.
Definition enc_stable (s : stable) : list N :=
  le 8 (N.of_nat (length (s_flags s))) ++ enc_flags (s_flags s) ++
  le 8 (N.of_nat (length (s_outcomes s))) ++ enc_outcomes (s_outcomes s).
Definition enc_key (operation_hash : N) (s : stable) : list N := le 8 operation_hash ++ enc_stable s.
Definition cache_key (H : list N -> N) (operation_hash : N) (s : stable) : N := H (enc_key operation_hash s).

(** query_plan.rs:80-140: the plan cache of one supergraph. *)
Section Cache.
Context {Op Plan : Type} (H : list N -> N) (op_hash : Op -> N) (op_empty : Op -> bool) (empty_plan : Plan)
  (ts : list tdef) (edges : list edge).
(** The planner sees the context only through the edges; [None] is an error. *)
Context (planner : Op -> list bool -> option Plan).
Record req := { q_op : Op; q_projection_empty : bool; q_introspection : bool; q_ctx : context }.
Definition fresh_plan (q : req) : option Plan :=
  if op_empty (q_op q) && q_introspection q then Some empty_plan
  else if op_empty (q_op q) && negb (q_projection_empty q) then Some empty_plan
  else planner (q_op q) (map (fun e => usable e (q_ctx q)) edges).
Definition key_of (q : req) : N := cache_key H (op_hash (q_op q)) (stable_of ts (q_ctx q)).
Definition lookup (k : N) (cache : list (N * Plan)) : option Plan :=
  match find (fun e => fst e =? k) cache with Some e => Some (snd e) | None => None end.
(** [or_try_insert_with]: an error is not stored. *)
Definition plan_with_cache (cache : list (N * Plan)) (q : req) : list (N * Plan) * option Plan :=
  match lookup (key_of q) cache with
  | Some p => (cache, Some p)
  | None => match fresh_plan q with
            | Some p => ((key_of q, p) :: cache, Some p)
            | None => (cache, None)
            end
  end.
(** The cache may drop an entry at any time. *)
Inductive event := Request (q : req) | Evict (k : N).
Fixpoint serve (cache : list (N * Plan)) (es : list event) : list (option Plan) :=
  match es with
  | [] => []
  | Request q :: es' => let '(cache', r) := plan_with_cache cache q in r :: serve cache' es'
  | Evict k :: es' => serve (filter (fun e => negb (fst e =? k)) cache) es'
  end.
End Cache.
Arguments req : clear implicits.
Arguments event : clear implicits.

(** progressive_override.rs:202-265; the outcome of an expression for this request is an oracle. *)
Inductive vrl := VrlBoolean (b : bool) | VrlOther | VrlError.
Section Evaluate.
Context (outcome : string -> vrl).
Fixpoint evaluate_each (expressions active : list string) : option (list string) :=
  match expressions with
  | [] => Some active
  | l :: es =>
      if existsb (String.eqb l) active then evaluate_each es active
      else match outcome l with
           | VrlBoolean true => evaluate_each es (l :: active)
           | VrlBoolean false => evaluate_each es active
           | VrlOther | VrlError => None
           end
  end.
Definition evaluate (static expressions : list string) (resolved : option (list string)) : option (list string) :=
  evaluate_each expressions (match resolved with Some r => r ++ static | None => static end).
End Evaluate.
(** [from_config], progressive_override.rs:172-200: labels that are on, and labels with expressions;
    the configuration is a map. *)
Inductive label_value := LBool (b : bool) | LExpression.
Definition statics (cfg : list (string * label_value)) : list string :=
  flat_map (fun kv => match snd kv with LBool true => [fst kv] | _ => [] end) cfg.
Definition expressions (cfg : list (string * label_value)) : list string :=
  flat_map (fun kv => match snd kv with LExpression => [fst kv] | _ => [] end) cfg.
