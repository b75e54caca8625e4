(** What progressive overrides promise. *)
From Coq Require Import String List NArith Bool.
From Verif Require Import RequiresModel RequiresSpec FingerSpec OverrideModel.
Import ListNotations.
Local Open Scope N_scope.

(** The override is in effect for this request. *)
Definition in_effect (l : option label) (c : context) : Prop :=
  match l with
  | None => True
  | Some (Custom s) => In s (active_flags c)
  | Some (Percentage p) => percentage_value c < p
  end.
(** Two requests that a supergraph cannot tell apart: the same of its labels are active, and both
    fall on the same side of each of its thresholds. *)
Definition same_side (ts : list tdef) (c c' : context) : Prop :=
  forall t f jf, In t ts -> In f (t_fields t) -> In jf (f_joins f) ->
    match jf_label jf with
    | None => True
    | Some (Custom s) => In s (active_flags c) <-> In s (active_flags c')
    | Some (Percentage p) => percentage_value c < p <-> percentage_value c' < p
    end.
(** A subgraph serves a field in a request when no override that is in effect takes the field away
    from it, and its own override, if any, is in effect. *)
Definition serves (resolve : string -> string) (g : string) (f : fdef) (c : context) : Prop :=
  (forall jf, In jf (f_joins f) -> jf_override jf = Some (resolve g) -> ~ in_effect (jf_label jf) c) /\
  (forall jf, In jf (f_joins f) -> jf_graph jf = Some g -> jf_override jf <> None -> in_effect (jf_label jf) c).
(** What composition guarantees about the overrides of a field: a directive per subgraph, labels
    and overrides only on directives that name a subgraph, a subgraph's field overridden at most
    once, and not by or from a subgraph whose own field overrides. *)
Definition composed (resolve : string -> string) (f : fdef) : Prop :=
  (forall a b g, In a (f_joins f) -> In b (f_joins f) -> jf_graph a = Some g -> jf_graph b = Some g -> a = b) /\
  (forall a, In a (f_joins f) -> jf_label a <> None -> jf_override a <> None) /\
  (forall a, In a (f_joins f) -> jf_override a <> None -> jf_graph a <> None) /\
  (forall a b, In a (f_joins f) -> In b (f_joins f) -> jf_override a <> None -> jf_override a = jf_override b -> a = b) /\
  (forall a b g, In a (f_joins f) -> In b (f_joins f) -> jf_graph a = Some g -> jf_override a <> None ->
     jf_override b <> Some (resolve g)).

(** The hash tells the keys of these requests apart, and so does the hash of operations. *)
Definition keys_tell {Op} (H : list N -> N) (op_hash : Op -> N) (ts : list tdef) (q q' : req Op) : Prop :=
  op_hash (q_op q) < 2 ^ 64 /\ op_hash (q_op q') < 2 ^ 64 /\
  (op_hash (q_op q) = op_hash (q_op q') -> q_op q = q_op q') /\
  tells H (enc_key (op_hash (q_op q)) (stable_of ts (q_ctx q)))
          (enc_key (op_hash (q_op q')) (stable_of ts (q_ctx q'))).
Definition requests {Op} (es : list (event Op)) : list (req Op) :=
  flat_map (fun e => match e with Request q => [q] | Evict _ => [] end) es.
(** There is something to plan or something to answer. *)
Definition asks {Op} (op_empty : Op -> bool) (q : req Op) : Prop :=
  op_empty (q_op q) = true -> q_introspection q = true \/ q_projection_empty q = false.
(** Labels that are active: those a plugin resolved, those configured on, and those whose
    expression is true. *)
Definition active (outcome : string -> vrl) (cfg : list (string * label_value)) (resolved : option (list string))
    (l : string) : Prop :=
  (exists r, resolved = Some r /\ In l r) \/ In (l, LBool true) cfg \/
  (In (l, LExpression) cfg /\ outcome l = VrlBoolean true).
