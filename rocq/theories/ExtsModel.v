(** Response extensions sent by subgraphs.
    Models bin/router/src/executor/extensions/aggregator.rs:10-93, extensions/compile.rs:6-21, the
    places of use (execution/plan.rs:1138-1144, 611-614) and [ExecutionResultExtensions]
    (plan.rs:88-102). *)
From Coq Require Import String List NArith Bool.
From Verif Require Import JsonModel MaskModel.
Import ListNotations.
Local Open Scope string_scope.

Inductive strategy := First | Last | Append.
Record propagate := mkprop { p_strategy : strategy; p_allow : option (list string) }.
Definition agg := list (string * (strategy * list value)).
(** aggregator.rs:25-43 *)
Fixpoint write (k : string) (v : value) (s : strategy) (a : agg) : agg :=
  match a with
  | [] => [(k, (s, [v]))]
  | (k', (s', vs)) :: a' =>
      if String.eqb k k' then
        (k', (s', match s with First => vs | Last => [v] | Append => (vs ++ [v])%list end)) :: a'
      else (k', (s', vs)) :: write k v s a'
  end.
(** aggregator.rs:69-93 *)
Definition passes (p : propagate) (k : string) : bool :=
  negb (String.eqb k "queryPlan") && match p_allow p with Some l => existsb (String.eqb k) l | None => true end.
Definition apply_exts (plan : option propagate) (a : agg) (exts : value) : agg :=
  match plan, exts with
  | Some p, VObj o => fold_left (fun a kv => if passes p (fst kv) then write (fst kv) (snd kv) (p_strategy p) a else a) o a
  | _, _ => a
  end.
(** All responses, in the order they are processed; a response may have no extensions. *)
Definition collect (plan : option propagate) (responses : list (option value)) : agg :=
  fold_left (fun a r => match r with Some v => apply_exts plan a v | None => a end) responses [].
Section M.
  Variable J : Type.
  (** [SonicValue::from(&Value)], response/value.rs:405-440, and arrays. *)
  Variable conv : value -> J.
  Variable arr : list J -> J.
  (** aggregator.rs:49-61; [None] is the [expect]. *)
  Definition final (e : strategy * list value) : option J :=
    match fst e with
    | Append => Some (arr (map conv (snd e)))
    | _ => match snd e with v :: _ => Some (conv v) | [] => None end
    end.
  (** [entry(k).or_insert(v)] *)
  Definition or_insert (k : string) (v : J) (t : list (string * J)) : list (string * J) :=
    match aget k t with Some _ => t | None => (t ++ [(k, v)])%list end.
  (** aggregator.rs:47-64; the entries come in the order of the hash map. *)
  Fixpoint merge_into (a : agg) (t : list (string * J)) : option (list (string * J)) :=
    match a with
    | [] => Some t
    | (k, e) :: a' => match final e with Some j => merge_into a' (or_insert k j t) | None => None end
    end.
  (** The keys as serialized: the plan, then the map. *)
  Definition written (query_plan : option J) (t : list (string * J)) : list (string * J) :=
    (match query_plan with Some q => [("queryPlan", q)] | None => [] end ++ t)%list.
End M.
Arguments final {J}. Arguments or_insert {J}. Arguments merge_into {J}. Arguments written {J}.
