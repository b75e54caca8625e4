(** Properties C16, C18 and C41: entity fetches. *)
From Coq Require Import String List NArith Bool Arith Sorted.
From Verif Require Import StrOrd JsonModel MergeModel MergeSpec Ast TraverseModel TraverseSpec RewriteModel
  ProjModel ProjSpec RequiresModel RequiresSpec RequiresProofs EntityModel EntitySpec EntityProofs EntityBatch EntityFacts.
Import ListNotations.
Local Open Scope string_scope.

(** C16: the request holds a list of representations.  Every entity found at the path has the
    representation with its number (none when its representation is empty or it is null), and
    every representation belongs to some entity.  However long the answer takes, provided the
    path still denotes the same positions, the entity at each position receives the answer
    with its own number (nothing when there is none), nothing else changes, and every error
    is moved to the positions of the entity it names. *)
Theorem C16_every_entity_gets_its_own_answer :
  forall ryu pt xxh sels rws p data j, forallb plain_sel sels = true ->
  faithful pt xxh sels rws (visit pt p data) -> all_tidy pt sels rws (visit pt p data) ->
  prepare_flatten ryu pt xxh sels rws p data = Some (Some j) ->
  exists reps own,
    j_text j = print_value ryu (VArr reps) /\ reps <> [] /\
    (forall q e, selects pt p data q e -> its_rep pt sels rws e = pick (own q) reps) /\
    (forall q i, own q = Some i -> i < length reps) /\
    (forall i, i < length reps -> exists q e, selects pt p data q e /\ own q = Some i) /\
    exists pos,
      (forall i, StronglySorted before (pos i)) /\
      (forall i q, In q (pos i) <-> (exists e, selects pt p data q e) /\ own q = Some i) /\
      forall data2 name aff out r ents0 ents, same_positions pt p data data2 ->
        take_entities_by_key "_entities" (r_data r) = Some ents0 -> map_opt (apply_rewrites pt out) ents0 = Some ents ->
        exists data' errs, process_flatten pt name aff p j out r data2 = Some (data', errs) /\
          (forall q e2, selects pt p data2 q e2 -> at_path q data' = Some (merge_opt e2 (pick (own q) ents))) /\
          (forall q, off_path pt p data2 q -> at_path q data' = at_path q data2) /\
          errs = flat_map (fun e => relocated pos (tagged name (Some aff) e))
                          (match r_errors r with Some es => es | None => [] end).
Proof. exact flatten_ok. Qed.

(** C16: no request is made exactly when no entity has a representation. *)
Theorem C16_nothing_to_fetch :
  forall ryu pt xxh sels rws p data, forallb plain_sel sels = true ->
  faithful pt xxh sels rws (visit pt p data) -> all_tidy pt sels rws (visit pt p data) ->
  forall j, prepare_flatten ryu pt xxh sels rws p data = Some j ->
  (j = None <-> forall q e, selects pt p data q e -> its_rep pt sels rws e = None).
Proof. exact nothing_to_fetch. Qed.

(** C18: whatever the positions, an error keeps its message and details and at least one copy
    of it is reported. *)
Theorem C18_no_error_is_lost :
  forall pos e, relocated pos e <> [] /\ Forall (same_report e) (relocated pos e).
Proof. exact relocated_kept. Qed.

(** C18: the router's error handling is exactly this relocation, for every index map that
    lists the positions [pos]. *)
Theorem C18_errors_are_relocated :
  forall name aff es m pos,
  (forall j, eget j m = match pos j with [] => None | l => Some (map epath l) end) ->
  handle_errors name aff (Some es) (Some m) = flat_map (fun e => relocated pos (tagged name aff e)) es.
Proof. exact handle_errors_some. Qed.

(** C18: when the answer has no entity list, every error is still reported, once, unmoved. *)
Theorem C18_without_entities :
  forall pt name aff p j out r data, take_entities_by_key "_entities" (r_data r) = None ->
  process_flatten pt name aff p j out r data
  = Some (data, map (tagged name (Some aff)) (match r_errors r with Some es => es | None => [] end)).
Proof. exact process_no_entities. Qed.

Definition no_types : ptypes := fun _ => None.
Definition sum_hash (l : list N) : N := fold_left (fun a b => (a * 257 + b + 1)%N) l 0%N.
Definition no_float : N -> string := fun _ => "".
Definition need_id : list sel :=
  [SFrag "User" None None [SField "__typename" None None None None false []; SField "id" None None None None false []]].
Definition user (n : N) : value := VObj [("__typename", VStr "User"); ("id", VU64 n)].
Definition ex_data : value := VObj [("users", VArr [user 1; VNull; user 2; user 1])].
Definition ex_path : list fseg := [FField "users"; FList].
Definition ex_job : job :=
  match prepare_flatten no_float no_types sum_hash need_id [] ex_path ex_data with
  | Some (Some j) => j
  | _ => mkjob "" [] []
  end.
Definition err (m : string) (p : list eseg) : gerror := mkerr m [] (Some p) None None None [].

(** C18 does not hold for such an answer: the error is reported with the path inside the
    subgraph's request, although the positions are known.  [data] is null in every response of
    a subgraph whose non-null [_entities] field failed. *)
Theorem C18_internal_path_leaks_refuted :
  exists pt xxh sels p data j r e,
    prepare_flatten no_float pt xxh sels [] p data = Some (Some j) /\
    (exists q x, selects pt p data q x /\ its_rep pt sels [] x <> None) /\
    process_flatten pt "users" "users.@" p j [] r data = Some (data, [e]) /\
    e_path e = Some [EStr "_entities"; EIdx 0; EStr "name"].
Proof.
  exists no_types, sum_hash, need_id, ex_path, (VObj [("users", VArr [user 1])]).
  eexists. exists (mkresp VNull (Some [err "boom" [EStr "_entities"; EIdx 0; EStr "name"]])). eexists.
  split; [reflexivity|]. split; [|split; reflexivity].
  exists [Key "users"; Idx 0], (user 1). split; [|discriminate].
  apply sel_field with (w := VArr [user 1]); [reflexivity|]. apply sel_list with (x := user 1); [reflexivity|].
  apply sel_here. discriminate.
Qed.

(** *** Batches *)
(** C41: what it means for a path to be answered. *)
Theorem C41_answered_means :
  forall pt own ents p d d1, answered pt own ents p d d1 ->
  (forall q e, selects pt p d q e -> at_path q d1 = Some (merge_opt e (pick (own q) ents))) /\
  (forall q, off_path pt p d q -> at_path q d1 = at_path q d).
Proof. exact answered_means. Qed.
Theorem C41_answered_is_unique :
  forall pt own ents p d d1 d2, answered pt own ents p d d1 -> answered pt own ents p d d2 -> d1 = d2.
Proof. exact answered_fun. Qed.

(** C41: in a batch every fetch has its own list of representations in its variable, and when
    the answer arrives each fetch is answered, in turn, from the list under its own alias and
    from nothing else.  Every error goes to the fetch its path names, relocated to the
    positions of that fetch's entities; the errors that name no fetch follow unchanged. *)
Theorem C41_batch_is_split_losslessly :
  forall ryu pt xxh al data vars sts, Forall (good pt xxh data) al ->
  (forall a b, In a al -> In b al -> a_var a = a_var b ->
     a_requires a = a_requires b /\ a_in a = a_in b /\ a_paths a = a_paths b) ->
  prepare_batch ryu pt xxh al data [] = Some (vars, sts) ->
  exists fs,
    Forall2 (fun a f => represents pt data a (fst (fst f)) (snd (fst f)) (snd f) /\
                        get (a_var a) vars = Some (print_value ryu (VArr (fst (fst f))))) al fs /\
    forall r data2 name affected ents, NoDup (map a_alias al) ->
      Forall2 (fun a x => answers pt a (r_data r) = Some x) al ents ->
      let ws := map (fun t => let '(a, ((reps, own), pos), x) := t in mkwork a reps own pos x) (combine (combine al fs) ents) in
      let es := match r_errors r with Some es => es | None => [] end in
      steady pt data ws data2 ->
      exists data', process_batch pt name affected sts r data2
                    = Some (data', flat_map (errors_for name affected es) ws ++ errors_for_none name al es)%list /\
                    batch_answered pt ws data2 data'.
Proof. exact batch_ok. Qed.

(** *** Non-vacuity *)
Example C16_example :
  prepare_flatten no_float no_types sum_hash need_id [] ex_path ex_data = Some (Some ex_job) /\
  j_text ex_job = print_value no_float (VArr [user 1; user 2]) /\
  process_flatten no_types "users" "users.@" ex_path ex_job []
    (mkresp (VObj [("_entities", VArr [VObj [("name", VStr "Ada")]; VNull])])
            (Some [err "no such user" [EStr "_entities"; EIdx 1]; err "late" [EStr "_entities"; EIdx 0; EStr "name"]; err "x" []]))
    ex_data
  = Some (VObj [("users", VArr [VObj [("__typename", VStr "User"); ("id", VU64 1); ("name", VStr "Ada")]; VNull; user 2;
                                VObj [("__typename", VStr "User"); ("id", VU64 1); ("name", VStr "Ada")]])],
          map (tagged "users" (Some "users.@"))
            [err "no such user" [EStr "users"; EIdx 2]; err "late" [EStr "users"; EIdx 0; EStr "name"];
             err "late" [EStr "users"; EIdx 3; EStr "name"]; err "x" []]).
Proof. repeat split; vm_compute; reflexivity. Qed.

(** the premises of C16 hold of this fetch *)
Example C16_premises :
  forallb plain_sel need_id = true /\ faithful no_types sum_hash need_id [] (visit no_types ex_path ex_data) /\
  all_tidy no_types need_id [] (visit no_types ex_path ex_data) /\ same_positions no_types ex_path ex_data ex_data.
Proof.
  split; [reflexivity|]. split; [|split; [|apply same_positions_refl]].
  - intros e1 e2 H1 H2. vm_compute in H1, H2.
    repeat (destruct H1 as [<-|H1]; [|try contradiction]); repeat (destruct H2 as [<-|H2]; [|try contradiction]);
      intros N1 N2 H; try discriminate N1; try discriminate N2; try reflexivity; vm_compute in H; discriminate H.
  - intros e e' H E. cbn in E. injection E as <-. vm_compute in H.
    repeat (destruct H as [<-|H]; [reflexivity|]). contradiction.
Qed.

Definition ex_batch : list alias :=
  [mkalias "_e0" "representations_0" [ex_path] need_id [] [];
   mkalias "_e1" "representations_1" [[FField "author"]] need_id [] []].
Definition ex_data2 : value := VObj [("author", user 7); ("users", VArr [user 1; user 2])].
Example C41_example :
  match prepare_batch no_float no_types sum_hash ex_batch ex_data2 [] with
  | Some (vars, sts) =>
      vars = [("representations_0", print_value no_float (VArr [user 1; user 2]));
              ("representations_1", print_value no_float (VArr [user 7]))] /\
      process_batch no_types "users" (fun _ => "p") sts
        (mkresp (VObj [("_e0", VArr [VNull; VObj [("name", VStr "Bob")]]); ("_e1", VArr [VObj [("name", VStr "Eve")]])])
           (Some [err "a" [EStr "_e1"; EIdx 0; EStr "name"]; err "b" [EStr "_e0"; EIdx 1]; err "c" [EStr "zzz"]]))
        ex_data2
      = Some (VObj [("author", VObj [("__typename", VStr "User"); ("id", VU64 7); ("name", VStr "Eve")]);
                    ("users", VArr [user 1; VObj [("__typename", VStr "User"); ("id", VU64 2); ("name", VStr "Bob")]])],
              [tagged "users" (Some "p") (err "b" [EStr "users"; EIdx 1]);
               tagged "users" (Some "p") (err "a" [EStr "author"; EStr "name"]);
               tagged "users" None (err "c" [EStr "zzz"])])
  | None => False
  end.
Proof. vm_compute. split; reflexivity. Qed.

Print Assumptions C16_every_entity_gets_its_own_answer.
Print Assumptions C16_nothing_to_fetch.
Print Assumptions C18_no_error_is_lost.
Print Assumptions C18_errors_are_relocated.
Print Assumptions C18_without_entities.
Print Assumptions C18_internal_path_leaks_refuted.
Print Assumptions C41_answered_means.
Print Assumptions C41_answered_is_unique.
Print Assumptions C41_batch_is_split_losslessly.
