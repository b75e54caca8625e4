(** What masking promises. *)
From Coq Require Import String List NArith Bool.
From Verif Require Import JsonModel EntityModel MaskModel.
Import ListNotations.
Local Open Scope string_scope.

(** The settings of a subgraph override those of all. *)
Definition settings (c : mask_cfg) (s : string) : option sub_cfg :=
  match m_subgraphs c with Some l => aget s l | None => None end.
Definition redacts (c : mask_cfg) (s : string) : bool :=
  m_enabled c && match settings c s with Some (mksub (Some b) _) => b | _ => m_all c end.
Definition allows (c : mask_cfg) (s k : string) : bool :=
  negb (m_enabled c) ||
  match match settings c s with Some (mksub _ (Some p)) => Some p | _ => m_all_ext c end with
  | Some (Allow l) => existsb (String.eqb k) l
  | Some (Deny l) => negb (existsb (String.eqb k) l)
  | None => true
  end.
(** The error [e'] is [e] as the client may see it, for an error of subgraph [s]. *)
Definition masked_as (c : mask_cfg) (s : string) (e e' : gerror) : Prop :=
  e_message e' = (if redacts c s then m_message c else e_message e) /\
  e_locations e' = e_locations e /\ e_path e' = e_path e /\
  forall k, aget k (ext_pairs e') = if allows c s k then aget k (ext_pairs e) else None.
(** What the client may see of subgraph [s]: its message and extension keys only as configured. *)
Definition conforms (c : mask_cfg) (s : string) (e' : gerror) : Prop :=
  (redacts c s = true -> e_message e' = m_message c) /\
  forall k v, In (k, v) (ext_pairs e') -> allows c s k = true.
(** No extension is called like one of the fields. *)
Definition reserved (k : string) : bool := String.eqb k "code" || String.eqb k "service" || String.eqb k "affectedPath".
Definition wf_error (e : gerror) : Prop := forall k v, In (k, v) (e_ext e) -> reserved k = false.
(** The subgraph does not claim to be another one. *)
Definition honest (s : string) (e : gerror) : Prop := e_service e = None \/ e_service e = Some s.
