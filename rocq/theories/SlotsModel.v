(** Long-lived client limit: bin/router/src/pipeline/long_lived_client_limit.rs and its use in
    pipeline/mod.rs:404-425 and shared_state.rs:109-126, 178-233. *)
From Coq Require Import String List Bool NArith Ascii.
From Verif Require Import StrUtil HeadersModel CacheControlModel.
Import ListNotations.
Local Open Scope string_scope.

(** ** Reserving and releasing, interleaved

    [fetch_update] (std: load, then a loop of [compare_exchange_weak]) is broken into its atomic
    accesses.  [Trying p]: [p] was read, is below the limit, and the exchange is still to come. *)
Inductive phase := Fresh | Trying (p : N) | Holding | Refused | Released.

Record state := { counter : N; phases : nat -> phase }.

Definition init : state := {| counter := 0; phases := fun _ => Fresh |}.

(** An access by reservation [t].  [Exchange] may fail spuriously (weak). *)
Inductive event := Load (t : nat) | Exchange (t : nat) (spurious : bool) | Drop (t : nat).

Definition usize : N := 18446744073709551616.

Section Limit.
Context (limit : N).

(** The closure of long_lived_client_limit.rs:154-160 applied to a value just read. *)
Definition decide (current : N) : phase :=
  if N.ltb current limit then Trying current else Refused.

Definition put (t : nat) (p : phase) (f : nat -> phase) : nat -> phase :=
  fun u => if Nat.eqb u t then p else f u.

(** Accesses out of turn do not exist; they leave the state alone. *)
Definition step (s : state) (e : event) : state :=
  match e with
  | Load t =>
      match phases s t with
      | Fresh => {| counter := counter s; phases := put t (decide (counter s)) (phases s) |}
      | _ => s
      end
  | Exchange t spurious =>
      match phases s t with
      | Trying p =>
          if N.eqb (counter s) p && negb spurious
          then {| counter := p + 1; phases := put t Holding (phases s) |}
          else {| counter := counter s; phases := put t (decide (counter s)) (phases s) |}
      | _ => s
      end
  | Drop t =>
      (* [fetch_sub] wraps around. long_lived_client_limit.rs:169-173 *)
      match phases s t with
      | Holding => {| counter := (counter s + (usize - 1)) mod usize; phases := put t Released (phases s) |}
      | _ => s
      end
  end.

Fixpoint run (s : state) (es : list event) : state :=
  match es with [] => s | e :: es' => run (step s e) es' end.
End Limit.

(** ** Which requests reserve *)

(** [str::contains] *)
Fixpoint contains (p s : string) : bool :=
  starts_with p s || match s with EmptyString => false | String _ s' => contains p s' end.

(** long_lived_client_limit.rs:197-208 *)
Definition is_websocket_upgrade (h : headers) : bool :=
  match match hget "upgrade" h with Some v => to_str v | None => None end with
  | Some v => String.eqb (lower v) "websocket"
  | None => false
  end &&
  match match hget "connection" h with Some v => to_str v | None => None end with
  | Some v => contains "upgrade" (lower v)
  | None => false
  end.

Record config := { max_clients : N; websocket_enabled : bool }.

(** What an HTTP request turns out to be. *)
Record client := { c_headers : headers; c_subscription : bool }.

(** Slots a request tries to reserve, one after the other, all held to its end
    (long_lived_client_limit.rs:39-50, 76-104; pipeline/mod.rs:412-425). *)
Definition reservations (cfg : config) (c : client) : nat :=
  if N.eqb (max_clients cfg) 0 then 0
  else
    (if websocket_enabled cfg && is_websocket_upgrade (c_headers c) then 1 else 0) +
    (if c_subscription c then 1 else 0).

(** [n] reservations without anyone else around; the number held, or [None] for a refusal. *)
Fixpoint reserve_alone (limit : N) (n : nat) (held : N) : option N :=
  match n with
  | 0 => Some held
  | S n' => if N.ltb held limit then reserve_alone limit n' (held + 1) else None
  end.

Definition admit (cfg : config) (held : N) (c : client) : option N :=
  reserve_alone (max_clients cfg) (reservations cfg c) held.
