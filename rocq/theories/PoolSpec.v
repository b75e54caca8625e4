(* What a pool of connections promises its callers. *)
From Coq Require Import String List Bool Arith.
From Verif Require Import PoolModel.
Import ListNotations.
Open Scope string_scope.
Open Scope list_scope.

(* The identities asked for, in the order of the calls *)
Fixpoint asked (tr : list action) : list string :=
  match tr with
  | [] => []
  | Call id :: r => id :: asked r
  | _ :: r => asked r
  end.
Definition asks (tr : list action) (w : nat) (id : string) : Prop := nth_error (asked tr) w = Some id.

Definition connecting (p : pool) (g : nat) (id : string) : Prop := In (g, id) (attempts p).
Definition takes_commands (p : pool) (x : nat) : Prop := exists id, In (x, (id, true)) (executors p).
Definition belongs (p : pool) (x : nat) (id : string) : Prop := exists b, In (x, (id, b)) (executors p).
Definition answered (p : pool) (w : nat) (a : answer) : Prop := In (w, a) (answers p).
(* A caller waits for an attempt to connect to what it asked for. *)
Definition waits (p : pool) (w g : nat) (id : string) : Prop :=
  exists ws, get id (entries p) = Some (Connecting g ws) /\ In w ws /\ ~ In w (gone p).
Definition offers (p : pool) (id : string) (x : nat) : Prop := get id (entries p) = Some (Initialized x).
(* How an attempt ends *)
Definition outcome (a : action) (g : nat) : option answer :=
  match a with
  | Succeed g' => if Nat.eqb g' g then Some (Got g) else None
  | Fail g' e => if Nat.eqb g' g then Some (Refused e) else None
  | Cancel g' => if Nat.eqb g' g then Some Stopped else None
  | _ => None
  end.
