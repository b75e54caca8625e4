(* What the graphql-transport-ws protocol asks of the server, said about the
   log of a connection only. Only types of the model are used. *)
From Coq Require Import String List Bool Arith NArith.
From Verif Require Import WsModel.
Import ListNotations.
Open Scope list_scope.

(* A message about the operation with this id *)
Inductive about (i : string) : out -> Prop :=
| about_next : forall b, about i (MNext i b)
| about_error : forall e, about i (MError i e)
| about_complete : about i (MComplete i).

Definition asks (i : string) : entry := EIn (AFrame (FText true (Some (CSubscribe i)))).
Definition completes (i : string) : entry := EIn (AFrame (FText true (Some (CComplete i)))).

(* Every entry that satisfies Q comes after one that satisfies P. *)
Definition before (P Q : entry -> Prop) (log : list entry) : Prop :=
  forall l1 e l2, log = l1 ++ e :: l2 -> Q e -> exists x, In x l1 /\ P x.

(* The ids of all subscribe messages *)
Definition asked (log : list entry) : list string :=
  flat_map (fun e => match e with
                     | EIn (AFrame (FText true (Some (CSubscribe i)))) => [i]
                     | _ => []
                     end) log.

(* What the instance n wrote, in order *)
Definition said (n : nat) (log : list entry) : list out :=
  flat_map (fun e => match e with
                     | EOut (Some k) m => if Nat.eqb k n then [m] else []
                     | _ => []
                     end) log.

(* The responses that the instance n got to pass on, in order *)
Definition heard (n : nat) (log : list entry) : list (option string) :=
  flat_map (fun e => match e with
                     | EIn (AEvent k (ERaw b)) => if Nat.eqb k n then [b] else []
                     | EIn (AOutcome k (OSingle b)) => if Nat.eqb k n then [b] else []
                     | _ => []
                     end) log.

(* A response is passed on as it is; the connection is closed if it is not
   JSON. *)
Definition answer (i : string) (b : option string) : out :=
  match b with
  | Some v => MNext i v
  | None => MClose 4500%N "Internal Server Error"
  end.

(* What an operation with id i has written so far, bs being its responses *)
Inductive shape (i : string) (bs : list (option string)) : list out -> Prop :=
| sh_open : shape i bs (map (answer i) bs)
| sh_complete : shape i bs (map (answer i) bs ++ [MComplete i])
| sh_error : forall e, shape i bs (map (answer i) bs ++ [MError i e])
| sh_error_complete : forall e, shape i bs (map (answer i) bs ++ [MError i e; MComplete i])
| sh_forbidden : forall e w, bs = [] -> shape i bs [MError i e; MClose 4403%N w]
| sh_broken : bs = [] -> shape i bs [MClose 4500%N "Internal Server Error"].

(* How it can end *)
Inductive finished (n : nat) (i : string) (log : list entry) : Prop :=
| fin_cancelled :
    In (EIn (ACancel n)) log ->
    said n log = map (answer i) (heard n log) -> finished n i log
| fin_completed :
    said n log = map (answer i) (heard n log) ++ [MComplete i] -> finished n i log
| fin_failed : forall e,
    heard n log = [] -> said n log = [MError i e] -> finished n i log
| fin_stream_failed : forall e,
    In (EIn (AEvent n (EError e))) log ->
    said n log = map (answer i) (heard n log) ++ [MError i e; MComplete i] -> finished n i log
| fin_forbidden : forall e w,
    heard n log = [] -> said n log = [MError i e; MClose 4403%N w] -> finished n i log
| fin_broken :
    heard n log = [] -> said n log = [MClose 4500%N "Internal Server Error"] -> finished n i log.

(* What the protocol allows: responses, then at most one of Complete and
   Error, and nothing after it. *)
Inductive allowed (i : string) : list out -> Prop :=
| al_open : forall bs, allowed i (map (MNext i) bs)
| al_complete : forall bs, allowed i (map (MNext i) bs ++ [MComplete i])
| al_error : forall bs e, allowed i (map (MNext i) bs ++ [MError i e]).

(* Since the stream of n started, the client completed its id or the
   connection went down. *)
Definition cancel_asked (n : nat) (i : string) (log : list entry) : Prop :=
  exists l1 l2, log = l1 ++ EIn (AOutcome n OStream) :: l2
    /\ (In (completes i) l2 \/ In (EIn AShutdown) l2).
