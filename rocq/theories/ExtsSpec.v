(** What the client gets from the extensions of subgraphs. *)
From Coq Require Import String List Bool.
From Verif Require Import JsonModel MaskModel ExtsModel.
Import ListNotations.
Local Open Scope string_scope.

(** The values subgraphs sent under [k], in order. *)
Definition sent (k : string) (responses : list (option value)) : list value :=
  flat_map (fun r => match r with
                     | Some (VObj o) => map snd (filter (fun kv => String.eqb k (fst kv)) o)
                     | _ => []
                     end) responses.
Definition allowed (plan : option propagate) (k : string) : bool :=
  match plan with
  | None => false
  | Some p => negb (String.eqb k "queryPlan") && match p_allow p with Some l => existsb (String.eqb k) l | None => true end
  end.
(** What is propagated under [k]. *)
Definition propagated {J} (conv : value -> J) (arr : list J -> J) (plan : option propagate) (k : string)
  (responses : list (option value)) : option J :=
  match plan with
  | None => None
  | Some p =>
      if allowed plan k then
        match sent k responses with
        | [] => None
        | v :: vs => Some (match p_strategy p with
                           | First => conv v
                           | Last => conv (last (v :: vs) v)
                           | Append => arr (map conv (v :: vs))
                           end)
        end
      else None
  end.
