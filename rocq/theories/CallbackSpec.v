(** What subscriptions over HTTP callbacks must do, by histories. *)
From Coq Require Import String List Bool NArith.
From Verif Require Import CallbackModel.
Import ListNotations.
Local Open Scope string_scope.
Local Open Scope list_scope.

Section Spec.
  Variables P E R : Type.
  Variable decode : P -> option R.
  Variable gone : E.
  Notation msg := (msg P E).
  Notation label := (label P E R).
  Notation event := (event P E).

  (** Identifiers are not generated twice *)
  Definition opened (l : list event) : list string := flat_map (fun e => match e with Subscribe id _ => [id] | _ => [] end) l.
  Definition fresh (l : list event) : Prop := NoDup (opened l).
  Definition sent (id : string) (l : list label) : list msg := flat_map (fun x => match x with LSent i m => if String.eqb id i then [m] else [] | _ => [] end) l.
  Definition yields (id : string) (l : list label) : list (yielded E R) := flat_map (fun x => match x with LYield i y => if String.eqb id i then [y] else [] | _ => [] end) l.
  (** What is shown of the messages of a subscription, and whether it is then over *)
  Inductive shown : list msg -> list (yielded E R) -> bool -> Prop :=
  | shown_nil : shown [] [] false
  | shown_next p r l ys b : decode p = Some r -> shown l ys b -> shown (Next p :: l) (Event r :: ys) b
  | shown_bad p : decode p = None -> shown [Next p] [Undecodable] true
  | shown_quiet e : e = None \/ e = Some [] -> shown [Complete e] [] true
  | shown_errors e : e <> [] -> shown [Complete (Some e)] [Errors e] true.
  (** A request of the subgraph that knows the verifier *)
  Definition authentic (id v : string) (e : event) (m : msg) : Prop :=
    exists b, e = Post true id (Some b) /\ b_id b = id /\ b_verifier b = v /\
      match m with
      | Next p => b_action b = ANext /\ b_payload b = Some p
      | Complete errs => b_action b = AComplete /\ b_errors b = errs
      end.
End Spec.
