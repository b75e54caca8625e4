(* The pool of WebSocket connections to subgraphs: who connects, who waits and
   who gets which connection. Models
   bin/router/src/executor/executors/websocket_pool.rs. *)
From Coq Require Import String List Bool Arith.
Import ListNotations.
Open Scope string_scope.
Open Scope list_scope.

(* An identity is the text of a [WebSocketConnectionId], lines 42-62. Attempts
   to connect are numbered by their generation, and the executor of a
   connection by the attempt that made it; callers are numbered in the order
   of their calls. *)
(* lines 85-106: [PoolEntry]; of a waiter, the caller *)
Inductive entry : Type :=
| Connecting (generation : nat) (waiters : list nat)
| Initialized (executor : nat).

(* What a caller gets, lines 255-267: the executor, the error of the attempt,
   or that it stopped *)
Inductive answer : Type := Got (executor : nat) | Refused (error : string) | Stopped.

Record pool : Type := mkpool {
  entries : list (string * entry);
  next_gen : nat;
  attempts : list (nat * string);          (* the tasks that connect *)
  executors : list (nat * (string * bool)); (* with their identity and whether they take commands *)
  next_call : nat;
  answers : list (nat * answer);
  gone : list nat }.                       (* callers that gave up *)
Definition empty : pool := mkpool [] 0 [] [] 0 [] [].

Fixpoint get {A : Type} (id : string) (l : list (string * A)) : option A :=
  match l with
  | [] => None
  | (k, x) :: r => if String.eqb k id then Some x else get id r
  end.
Definition del {A : Type} (id : string) (l : list (string * A)) : list (string * A) :=
  filter (fun e => negb (String.eqb (fst e) id)) l.
Definition put {A : Type} (id : string) (x : A) (l : list (string * A)) : list (string * A) := (id, x) :: del id l.
Fixpoint nget {A : Type} (n : nat) (l : list (nat * A)) : option A :=
  match l with
  | [] => None
  | (k, x) :: r => if Nat.eqb k n then Some x else nget n r
  end.
Definition ndel {A : Type} (n : nat) (l : list (nat * A)) : list (nat * A) :=
  filter (fun e => negb (Nat.eqb (fst e) n)) l.
Definition mem (n : nat) (l : list nat) : bool := existsb (Nat.eqb n) l.

(* [!executor.commands.is_closed()] *)
Definition is_open (x : nat) (p : pool) : bool :=
  match nget x (executors p) with Some (_, b) => b | None => false end.
(* lines 119-136 *)
Definition get_initialized (id : string) (p : pool) : option nat :=
  match get id (entries p) with
  | Some (Initialized x) => if is_open x p then Some x else None
  | _ => None
  end.

(* lines 270-274: a caller that gave up gets nothing *)
Definition notify (ws : list nat) (a : answer) (p : pool) : list (nat * answer) :=
  map (fun w => (w, a)) (filter (fun w => negb (mem w (gone p))) ws) ++ answers p.
(* lines 317-332, 334-347: [remove_if] for one's own generation, with the
   waiters of what is removed *)
Definition withdraw (g : nat) (id : string) (l : list (string * entry)) : list (string * entry) * list nat :=
  match get id l with
  | Some (Connecting g' ws) => if Nat.eqb g' g then (del id l, ws) else (l, [])
  | _ => (l, [])
  end.
(* lines 293-315: [publish] *)
Definition publish (g : nat) (id : string) (l : list (string * entry)) : option (list (string * entry) * list nat) :=
  match get id l with
  | Some (Connecting g' ws) => if Nat.eqb g' g then Some (put id (Initialized g) l, ws) else None
  | _ => None
  end.

(* lines 138-185 *)
Definition call (id : string) (p : pool) : pool :=
  let w := next_call p in
  let begin := mkpool (put id (Connecting (next_gen p) [w]) (entries p)) (S (next_gen p)) ((next_gen p, id) :: attempts p)
                      (executors p) (S w) (answers p) (gone p) in
  match get id (entries p) with
  | Some (Initialized x) =>
      if is_open x p
      then mkpool (entries p) (next_gen p) (attempts p) (executors p) (S w) ((w, Got x) :: answers p) (gone p)
      else begin
  | Some (Connecting g ws) =>
      mkpool (put id (Connecting g (filter (fun v => negb (mem v (gone p))) ws ++ [w])) (entries p)) (next_gen p) (attempts p)
             (executors p) (S w) (answers p) (gone p)
  | None => begin
  end.

(* What happens to a pool: a call; a caller gives up; an attempt succeeds,
   fails, or its task is dropped (lines 187-240, 334-347); the owner of a
   connection closes its intake of commands (lines 739, 782-788); an executor
   evicts itself (lines 413-432). *)
Inductive action : Type :=
| Call (id : string)
| GiveUp (w : nat)
| Succeed (g : nat)
| Fail (g : nat) (error : string)
| Cancel (g : nat)
| Close (x : nat)
| Evict (x : nat).

Definition finish (g : nat) (id : string) (a : answer) (p : pool) : pool :=
  let (l, ws) := withdraw g id (entries p) in
  mkpool l (next_gen p) (ndel g (attempts p)) (executors p) (next_call p) (notify ws a p) (gone p).
Definition evict (x : nat) (id : string) (l : list (string * entry)) : list (string * entry) :=
  match get id l with
  | Some (Initialized y) => if Nat.eqb y x then del id l else l
  | _ => l
  end.

Definition step (p : pool) (a : action) : option pool :=
  match a with
  | Call id => Some (call id p)
  | GiveUp w =>
      if Nat.ltb w (next_call p) && negb (mem w (gone p)) && match nget w (answers p) with Some _ => false | None => true end
      then Some (mkpool (entries p) (next_gen p) (attempts p) (executors p) (next_call p) (answers p) (w :: gone p))
      else None
  | Succeed g =>
      match nget g (attempts p) with
      | Some id =>
          match publish g id (entries p) with
          | Some (l, ws) =>
              Some (mkpool l (next_gen p) (ndel g (attempts p)) ((g, (id, true)) :: executors p) (next_call p) (notify ws (Got g) p) (gone p))
          | None =>
              (* the connection is discarded, the guard of the attempt runs *)
              Some (mkpool (fst (withdraw g id (entries p))) (next_gen p) (ndel g (attempts p)) ((g, (id, false)) :: executors p)
                           (next_call p) (notify (snd (withdraw g id (entries p))) Stopped p) (gone p))
          end
      | None => None
      end
  | Fail g error => match nget g (attempts p) with Some id => Some (finish g id (Refused error) p) | None => None end
  | Cancel g => match nget g (attempts p) with Some id => Some (finish g id Stopped p) | None => None end
  | Close x =>
      match nget x (executors p) with
      | Some (id, true) =>
          Some (mkpool (entries p) (next_gen p) (attempts p) ((x, (id, false)) :: ndel x (executors p)) (next_call p) (answers p) (gone p))
      | _ => None
      end
  | Evict x =>
      match nget x (executors p) with
      | Some (id, _) => Some (mkpool (evict x id (entries p)) (next_gen p) (attempts p) (executors p) (next_call p) (answers p) (gone p))
      | None => None
      end
  end.
Fixpoint steps (p : pool) (l : list action) : option pool :=
  match l with
  | [] => Some p
  | a :: r => match step p a with Some p' => steps p' r | None => None end
  end.
