(** What an operator expects of header propagation, in terms of header lines only. *)
From Coq Require Import String List Bool.
From Verif Require Import StrUtil HeadersModel.
Import ListNotations.
Local Open Scope string_scope.

(** The lines of a header map that carry name [n], in order. *)
Definition lines (n : string) (h : headers) : list string :=
  flat_map (fun kv => if String.eqb (fst kv) n then [snd kv] else []) h.

(** Configurations whose [rename] does not itself name a forbidden header. *)
Definition rq_rename_ok (r : request_rule) : Prop :=
  match r with
  | RqPropagateNamed _ _ (Some m) => ~ In m hop_by_hop
  | _ => True
  end.
Definition rs_rename_ok (r : response_rule) : Prop :=
  match r with
  | RsPropagateNamed _ (Some m) _ _ => ~ In m hop_by_hop /\ m <> "content-type"
  | _ => True
  end.

(** What the client must see for the values [vs] (in merge order, not empty) of an
    ordinary header. *)
Definition first_of (vs : list string) : list string := match vs with [] => [] | v :: _ => [v] end.
Definition last_of (vs : list string) : list string := first_of (rev vs).
Definition aggregated (s : strategy) (vs : list string) : list string :=
  match s with
  | First => first_of vs
  | Last => last_of vs
  | Append => match vs with [] => [] | _ => [join ", " vs] end
  end.

(** The first line with name [n] of each response that has one, in order. *)
Definition first_lines (n : string) (resps : list (string * headers)) : list string :=
  flat_map (fun r => first_of (lines n (snd r))) resps.
(** All lines with name [n] of all responses, in order. *)
Definition all_lines (n : string) (resps : list (string * headers)) : list string :=
  flat_map (fun r => lines n (snd r)) resps.
