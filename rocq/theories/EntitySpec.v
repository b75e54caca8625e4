(** What should happen to entities, their results and their errors. *)
From Coq Require Import String List NArith Bool Arith Sorted.
From Verif Require Import StrOrd JsonModel MergeModel MergeSpec Ast TraverseModel TraverseSpec RewriteModel RequiresModel RequiresSpec
  RequiresProofs EntityModel.
Import ListNotations.
Local Open Scope string_scope.

(** What the subgraph is told about an entity: its representation after the input rewrites;
    nothing for a null. *)
Definition its_rep (pt : ptypes) (sels : list sel) (rws : list rewrite) (e : value) : option value :=
  if is_null e then None
  else match apply_rewrites pt rws e with
       | Some e' => rep pt sels e'
       | None => None
       end.

(** What entities are compared by before they are sent. *)
Definition hash_of (pt : ptypes) (xxh : list N -> N) (sels : list sel) (e : value) : option N :=
  if is_null e then None else match hash_with pt sels e with Some b => Some (xxh b) | None => None end.
(** No collisions: entities that compare equal have equal representations (see C15). *)
Definition faithful (pt : ptypes) (xxh : list N -> N) (sels : list sel) (rws : list rewrite) (D : list value) : Prop :=
  forall e1 e2, In e1 D -> In e2 D -> is_null e1 = false -> is_null e2 = false ->
  hash_of pt xxh sels e1 = hash_of pt xxh sels e2 -> its_rep pt sels rws e1 = its_rep pt sels rws e2.
(** The rewritten entities are of the shape that is written as JSON (see C39). *)
Definition all_tidy (pt : ptypes) (sels : list sel) (rws : list rewrite) (D : list value) : Prop :=
  forall e e', In e D -> apply_rewrites pt rws e = Some e' -> tidy pt sels e' = true.

(** [None]: there is no answer for this entity. *)
Definition merge_opt (e : value) (answer : option value) : value :=
  match answer with Some en => deep_merge e en | None => e end.
Definition pick {A} (i : option nat) (l : list A) : option A :=
  match i with Some j => nth_error l j | None => None end.

(** Two trees in which a path denotes the same positions. *)
Definition same_positions (pt : ptypes) (p : list fseg) (d1 d2 : value) : Prop :=
  forall q, (exists x, selects pt p d1 q x) <-> (exists x, selects pt p d2 q x).

(** A position that has nothing to do with the targets of a path. *)
Definition off_path (pt : ptypes) (p : list fseg) (d : value) (q : list seg) : Prop :=
  forall t x, selects pt p d t x -> (~ exists c, q = (t ++ c)%list) /\ (~ exists c, t = (q ++ c)%list).

(** The error as seen by the client at each position that the entity was read from. *)
Definition relocated (positions : nat -> list (list seg)) (e : gerror) : list gerror :=
  match e_path e with
  | Some (EStr f :: EIdx i :: rest) =>
      if String.eqb f "_entities"
      then match positions i with
           | [] => [e]
           | ps => map (fun q => with_path (Some (epath q ++ rest)%list) e) ps
           end
      else [e]
  | _ => [e]
  end.
(** The error with the subgraph's name, a code and the fetch path filled in. *)
Definition tagged (name : string) (affected : option string) (e : gerror) : gerror :=
  mkerr (e_message e) (e_locations e) (e_path e)
    (Some (match e_code e with Some c => c | None => "DOWNSTREAM_SERVICE_ERROR" end))
    (Some (match e_service e with Some s => s | None => name end))
    (match affected with Some a => Some a | None => e_affected e end)
    (e_ext e).

(** [ps] lists, in document order, the positions of path [p] whose entity has number [j]. *)
Definition located (pt : ptypes) (p : list fseg) (data : value) (own : list seg -> option nat) (j : nat)
  (ps : list (list seg)) : Prop :=
  StronglySorted before ps /\
  forall q, In q ps <-> (exists e, selects pt p data q e) /\ own q = Some j.

(** ** Batches *)
(** [d1] is [d] with the answer of its own number merged into every target of [p]. *)
Definition answered (pt : ptypes) (own : list seg -> option nat) (ents : list value) (p : list fseg)
  (d d1 : value) : Prop :=
  exists ts, (forall q x, In (q, x) ts <-> selects pt p d q x) /\ StronglySorted before (map fst ts) /\
  d1 = replace_all (map (fun t => (fst t, merge_opt (snd t) (pick (own (fst t)) ents))) ts) d.
Inductive answered_in_turn (pt : ptypes) (own : list seg -> option nat) (ents : list value)
  : list (list fseg) -> value -> value -> Prop :=
| ait_nil d : answered_in_turn pt own ents [] d d
| ait_cons p ps d d1 d2 : answered pt own ents p d d1 -> answered_in_turn pt own ents ps d1 d2 ->
    answered_in_turn pt own ents (p :: ps) d d2.

(** One fetch of a batch: the representations sent for it, the number of the representation of
    the entity at each position, the positions of each number, and the answers. *)
Record work := mkwork {
  w_alias : alias;
  w_reps : list value;
  w_own : list seg -> option nat;
  w_pos : list fseg -> nat -> list (list seg);
  w_ents : option (list value) }.

(** Every entity is sent, under one number, to the right place. *)
Definition represents (pt : ptypes) (data : value) (a : alias) (reps : list value) (own : list seg -> option nat)
  (pos : list fseg -> nat -> list (list seg)) : Prop :=
  (forall p q e, In p (a_paths a) -> selects pt p data q e ->
     its_rep pt (a_requires a) (a_in a) e = pick (own q) reps) /\
  (forall q i, own q = Some i -> i < length reps) /\
  (forall i, i < length reps -> exists p q e, In p (a_paths a) /\ selects pt p data q e /\ own q = Some i) /\
  (forall p j, located pt p data own j (pos p j)).

(** The fetches are answered one after another; one without answers changes nothing. *)
Fixpoint batch_answered (pt : ptypes) (ws : list work) (d d' : value) : Prop :=
  match ws with
  | [] => d' = d
  | w :: ws' =>
      match w_ents w with
      | None => batch_answered pt ws' d d'
      | Some ents => exists d1, answered_in_turn pt (w_own w) ents (a_paths (w_alias w)) d d1 /\
                                batch_answered pt ws' d1 d'
      end
  end.

(** While the answers are merged, the paths keep denoting the positions they denoted when the
    representations were built. *)
Definition steady (pt : ptypes) (data : value) (ws : list work) (d0 : value) : Prop :=
  exists G : value -> Prop, G d0 /\
  (forall d w p, G d -> In w ws -> In p (a_paths (w_alias w)) -> same_positions pt p data d) /\
  (forall d w p ents d1, G d -> In w ws -> In p (a_paths (w_alias w)) -> w_ents w = Some ents ->
     answered pt (w_own w) ents p d d1 -> G d1).

(** The answers for an alias, after the output rewrites; [None]: a rewrite fails. *)
Definition answers (pt : ptypes) (a : alias) (resp : value) : option (option (list value)) :=
  match resp with
  | VObj o => match get (a_alias a) o with
              | Some (VArr l) => match map_opt (apply_rewrites pt (a_out a)) l with
                                 | Some l' => Some (Some l')
                                 | None => None
                                 end
              | _ => Some None
              end
  | _ => Some None
  end.

(** The error belongs to the fetch with this alias. *)
Definition names_alias (n : string) (e : gerror) : bool :=
  match e_path e with Some (EStr m :: _) => String.eqb m n | _ => false end.
Definition as_entities (e : gerror) : gerror :=
  match e_path e with
  | Some (EStr _ :: rest) => with_path (Some (EStr "_entities" :: rest)) e
  | _ => e
  end.
Definition only_path (affected : list fseg -> string) (ps : list (list fseg)) : option string :=
  match ps with [p] => Some (affected p) | _ => None end.
Definition errors_for (name : string) (affected : list fseg -> string) (es : list gerror) (w : work) : list gerror :=
  let pos := match w_ents w with
             | Some _ => fun j => flat_map (fun p => w_pos w p j) (a_paths (w_alias w))
             | None => fun _ => []
             end in
  flat_map (fun e => relocated pos (tagged name (only_path affected (a_paths (w_alias w))) (as_entities e)))
           (filter (names_alias (a_alias (w_alias w))) es).
Definition errors_for_none (name : string) (al : list alias) (es : list gerror) : list gerror :=
  map (tagged name None) (filter (fun e => negb (existsb (fun a => names_alias (a_alias a) e) al)) es).

Definition entities (pt : ptypes) (data : value) (a : alias) : list value := flat_map (fun p => visit pt p data) (a_paths a).
Definition good (pt : ptypes) (xxh : list N -> N) (data : value) (a : alias) : Prop :=
  forallb plain_sel (a_requires a) = true /\ faithful pt xxh (a_requires a) (a_in a) (entities pt data a) /\
  all_tidy pt (a_requires a) (a_in a) (entities pt data a).
