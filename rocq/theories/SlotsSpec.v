(** Slots, counted by looking at who holds one. *)
From Coq Require Import String Ascii List Bool NArith.
From Verif Require Import StrUtil HeadersModel SlotsModel.
Import ListNotations.
Local Open Scope string_scope.

Definition holds (s : state) (t : nat) : bool := match phases s t with Holding => true | _ => false end.

(** [n] of the reservations hold a slot. *)
Definition held (s : state) (n : N) : Prop :=
  exists ts, NoDup ts /\ (forall t, In t ts <-> holds s t = true) /\ N.of_nat (length ts) = n.

Definition is_refused (s : state) (t : nat) : Prop := phases s t = Refused.

(** Accesses of one reservation when nobody else interferes. *)
Definition alone (t : nat) : list event := [Load t; Exchange t false].

(** A request to open a WebSocket: the header [upgrade] is [websocket] and [connection] has
    [upgrade] in it, in any case; values with bytes other than visible ASCII and tabs do not count. *)
Definition visible (v : string) : Prop :=
  forall i c, String.get i v = Some c -> (32 <= N_of_ascii c <= 126)%N \/ N_of_ascii c = 9%N.
Definition wants_websocket (h : headers) : Prop :=
  exists u c, hget "upgrade" h = Some u /\ hget "connection" h = Some c /\ visible u /\ visible c /\
    lower u = "websocket" /\ exists a b, lower c = a ++ "upgrade" ++ b.
