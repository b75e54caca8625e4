(** Properties C37 and C38: walking and rewriting the response tree. *)
From Coq Require Import String List Bool Arith NArith Sorted.
From Verif Require Import StrOrd JsonModel MergeSpec TraverseModel TraverseSpec TraverseProofs
  RewriteModel RewriteSpec RewriteProofs.
Import ListNotations.
Local Open Scope string_scope.

(** C37: there is one list of target positions, exactly the positions the path denotes, in
    document order.  Reading returns the values at these positions.  Writing calls the
    callback once per position in the same order, with the position as the error path (after
    the initial path [e]), puts the results there and changes nothing else. *)
Theorem C37_reading_and_writing_visit_the_same_positions :
  forall pt p v, exists ts,
  visit pt p v = map snd ts /\
  (forall q x, In (q, x) ts <-> selects pt p v q x) /\
  StronglySorted before (map fst ts) /\
  forall St (cb : value -> option (list eseg) -> St -> value * St) e s us s',
    call_each cb (fun q => match e with Some l => Some (l ++ epath q)%list | None => None end) ts s = (us, s') ->
    exists v', visit_mut St cb pt p v e s = (v', s') /\
      (forall q w, In (q, w) us -> at_path q v' = Some w) /\
      (forall q, (forall t x, In (t, x) ts -> ~ inside t q /\ ~ inside q t) -> at_path q v' = at_path q v) /\
      (ts = [] -> v' = v).
Proof. exact walk_ok. Qed.

(** C37: every visited position holds the value the callback receives. *)
Theorem C37_error_path_is_the_position :
  forall pt p v q x, selects pt p v q x -> at_path q v = Some x.
Proof. exact selects_at_path. Qed.

(** C37: target positions never overlap. *)
Theorem C37_targets_are_independent : forall a b, before a b -> ~ inside a b /\ ~ inside b a.
Proof. exact before_indep. Qed.

(** C38: on an object with sorted keys the binary search used for every lookup finds exactly
    the value filed under the key. *)
Theorem C38_sorted_lookup_finds_every_key :
  forall (A : Type) (l : list (string * A)) k, keys_sorted l -> bsearch k l = get k l.
Proof. exact bsearch_get. Qed.

(** C38: a value setter writes the string at exactly the positions its path reaches, changes
    nothing else and keeps every key findable. *)
Theorem C38_value_setter :
  forall pt x p v,
  (forall q, reaches pt p v q -> at_path q (set_value pt x p v) = Some (VStr x)) /\
  (forall q, (forall t, reaches pt p v t -> apart t q) -> at_path q (set_value pt x p v) = at_path q v).
Proof. exact set_value_effect. Qed.

Theorem C38_value_setter_keeps_keys_sorted : forall pt x p v, wf v -> wf (set_value pt x p v).
Proof. exact set_value_wf. Qed.

(** C38: a rename whose path ends in a key never fails, refiles the entry in exactly the
    objects its path reaches and changes nothing else. *)
Theorem C38_rename_changes_only_the_key :
  forall pt to k p v, exists v', rename pt to (p ++ [RKey k]) v = Some v' /\
  (forall q o, reaches_obj pt p v q o -> exists o', at_path q v' = Some (VObj o') /\ renamed k to o o') /\
  (forall q, (forall t o, reaches_obj pt p v t o -> apart t q) -> at_path q v' = at_path q v).
Proof. exact rename_effect. Qed.

(** C38: seen as a set of entries, nothing is lost by a rename to a fresh name. *)
Theorem C38_rename_keeps_the_entries :
  forall k to o o', NoDup (map fst o) -> ~ In to (map fst o) -> renamed k to o o' ->
  forall j, get j o' = if String.eqb j to then get k o else if String.eqb j k then None else get j o.
Proof. exact renamed_get. Qed.

(** C38 does not hold for the lookups the router performs: the entry is renamed in place, so
    the object is no longer sorted and the binary search misses an untouched sibling.  The
    object is a subgraph answer whose field [name] was fetched under the planner's alias. *)
Definition ex_user := VObj [("__typename", VStr "User"); ("_internal_qp_alias_0", VStr "Ada"); ("id", VStr "7")].
Theorem C38_lookup_after_rename_refuted :
  exists pt v k to o', wf v /\ rename pt to [RKey k] v = Some (VObj o') /\
    In ("id", VStr "7") o' /\ ~ wf (VObj o') /\ bsearch "id" o' = None.
Proof.
  exists (fun _ => None), ex_user, "_internal_qp_alias_0", "name".
  exists [("__typename", VStr "User"); ("name", VStr "Ada"); ("id", VStr "7")].
  split; [repeat (constructor; try reflexivity)|]. split; [reflexivity|]. split; [right; right; left; reflexivity|].
  split; [|reflexivity]. intros W. inversion W as [| | | | | | | |o S F]. clear W F. unfold keys_sorted in S.
  cbn [map fst] in S. apply StronglySorted_inv in S. destruct S as [S _]. apply StronglySorted_inv in S.
  destruct S as [_ F]. apply Forall_inv in F. discriminate F.
Qed.

(** *** Non-vacuity *)
Definition ex_tree := VObj [("users", VArr [VObj [("__typename", VStr "User"); ("id", VU64 1)];
                                            VNull;
                                            VObj [("__typename", VStr "Bot"); ("id", VU64 2)];
                                            VObj [("id", VU64 3)]])].
Definition ex_pt : ptypes := fun t => if String.eqb t "Node" then Some ["User"] else None.
Example C37_example :
  visit ex_pt [FField "users"; FTypes ["Node"]] ex_tree
  = [VObj [("__typename", VStr "User"); ("id", VU64 1)]; VObj [("id", VU64 3)]] /\
  visit_mut (list (option (list eseg))) (fun v e s => (VNull, (s ++ [e])%list)) ex_pt
    [FField "users"; FTypes ["Node"]] ex_tree (Some []) []
  = (VObj [("users", VArr [VNull; VNull; VObj [("__typename", VStr "Bot"); ("id", VU64 2)]; VNull])],
     [Some [EStr "users"; EIdx 0]; Some [EStr "users"; EIdx 3]]).
Proof. split; reflexivity. Qed.

Example C38_example :
  set_value ex_pt "Account" [RKey "users"; RTypes ["User"]; RKey "__typename"] ex_tree
  = VObj [("users", VArr [VObj [("__typename", VStr "Account"); ("id", VU64 1)]; VNull;
                          VObj [("__typename", VStr "Bot"); ("id", VU64 2)]; VObj [("id", VU64 3)]])] /\
  rename ex_pt "uid" [RKey "users"; RTypes ["User"]; RKey "id"] ex_tree
  = Some (VObj [("users", VArr [VObj [("__typename", VStr "User"); ("uid", VU64 1)]; VNull;
                          VObj [("__typename", VStr "Bot"); ("id", VU64 2)]; VObj [("uid", VU64 3)]])]) /\
  rename ex_pt "uid" [] ex_tree = None.
Proof. repeat split; reflexivity. Qed.

Print Assumptions C37_reading_and_writing_visit_the_same_positions.
Print Assumptions C37_error_path_is_the_position.
Print Assumptions C37_targets_are_independent.
Print Assumptions C38_sorted_lookup_finds_every_key.
Print Assumptions C38_value_setter.
Print Assumptions C38_value_setter_keeps_keys_sorted.
Print Assumptions C38_rename_changes_only_the_key.
Print Assumptions C38_rename_keeps_the_entries.
Print Assumptions C38_lookup_after_rename_refuted.
