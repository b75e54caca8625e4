(** C59: merging the selections of two fetch steps keeps what both ask for *)
From Coq Require Import String List NArith ZArith Bool.
From Verif Require Import Ast QplanModel SafeModel SafeSpec SafeBase SafeMain SafePlain SafeWrong.
Import ListNotations.
Local Open Scope string_scope.
Local Open Scope list_scope.

Theorem C59_plain_keeps_both : forall as_first tgt src p,
  asks_loosely (merge_plain as_first tgt src) p <-> asks_loosely tgt p \/ asks_loosely src p.
Proof. exact merge_plain_asks. Qed.
Print Assumptions C59_plain_keeps_both.

Theorem C59_plain_at_path : forall H as_first path root src r,
  add_at H as_first path root src = Some r ->
  exists way, along (arguments_hash H) path way /\ (way = [] \/ asks root way) /\
    forall p, asks_loosely r p <->
      asks_loosely root p \/ exists q, asks_loosely src q /\ p = map loosen way ++ q.
Proof. exact add_at_ok. Qed.
Print Assumptions C59_plain_at_path.

Theorem C59_path_found : forall H as_first path root src way,
  tidy root -> Forall one_type path -> along (arguments_hash H) path way -> way = [] \/ asks root way ->
  add_at H as_first path root src <> None.
Proof. exact add_at_complete. Qed.
Print Assumptions C59_path_found.

Theorem C59_safe_merge_ends : forall H flags as_first c tgt src,
  merge_safe H flags as_first c tgt src <> Stuck /\
  (flags <> (false, false) -> exists r, merge_safe H flags as_first c tgt src = Ok r).
Proof. exact merge_progress. Qed.
Print Assumptions C59_safe_merge_ends.

(** Both sides are kept, but for the fields given a new name; a new name is a reserved one,
    is recorded, is given on the side the flags tell, and only to a field with a rival on
    the other side; and what is recorded was given. *)
Theorem C59_safe_keeps_both_partial : forall H flags c tgt src r c' recs,
  tidy tgt -> tidy src -> unreserved src -> honest (arguments_hash H) tgt src ->
  merge_safe H flags false c tgt src = Ok (r, (c', recs)) ->
  exists rho_t rho_s : renaming,
    (forall p, asks r p <-> (exists q, asks tgt q /\ p = moved rho_t q) \/
                            (exists q, asks src q /\ p = moved rho_s q)) /\
    (flags = (true, false) -> forall q, rho_s q = None) /\
    (flags <> (true, false) -> forall q, rho_t q = None) /\
    (forall q al, asks tgt q -> rho_t q = Some al ->
       reserved al /\ In (map (seg_of H) q, al) recs /\ rivalled src q) /\
    (forall q al, asks src q -> rho_s q = Some al ->
       reserved al /\ In (map (seg_of H) q, al) recs /\ rivalled tgt q) /\
    (forall record, In record recs -> exists q al, record = (map (seg_of H) q, al) /\
       (asks tgt q /\ rho_t q = Some al \/ asks src q /\ rho_s q = Some al)) /\
    tidy r.
Proof.
  intros H flags c tgt src r c' recs T1 T2 U Ho E.
  destruct (merge_good H flags [] tgt src (c, []) r (c', recs)) as (jn & <- & R & _ & G);
    [exact (conj T1 (conj T2 (conj U Ho)))|exact E|].
  cbn [snd List.app] in R. subst recs.
  destruct G as (G1 & G2 & G3 & G4 & G5 & G6 & G7).
  exists (SafeScan.j_t jn), (SafeScan.j_s jn).
  split; [exact G1|split; [|split; [|split; [exact G4|split; [exact G5|split; [exact G6|exact G7]]]]]].
  - intros ->. exact (G2 eq_refl).
  - intros N. apply G3. destruct flags as [[|] [|]]; try reflexivity. now destruct N.
Qed.
Print Assumptions C59_safe_keeps_both_partial.

(** For every hash function: arguments that differ by their kind only are merged, and the
    source's field is lost. *)
Theorem C59_argument_kinds_refuted : exists v v', v <> v' /\ forall H flags, exists r recs,
  merge_safe H flags false 0 [with_arg v] [with_arg v'] = Ok (r, recs) /\
  asks [with_arg v'] (asks_arg v') /\ ~ asks r (asks_arg v').
Proof.
  exists (GVar "x"), (GStr "x"). split; [discriminate|]. intros H flags.
  destruct (same_writes_lost H flags (GVar "x") (GStr "x")) as (E & A & N); [discriminate|exact (proj1 kinds_alike)|].
  exists [with_arg (GVar "x")], (0%N, []). auto.
Qed.
Print Assumptions C59_argument_kinds_refuted.

Theorem C59_argument_kinds_general : forall H flags v v',
  v <> v' -> value_writes v = value_writes v' ->
  merge_safe H flags false 0 [with_arg v] [with_arg v'] = Ok ([with_arg v], (0%N, [])) /\
  asks [with_arg v'] (asks_arg v') /\ ~ asks [with_arg v] (asks_arg v').
Proof. exact same_writes_lost. Qed.
Print Assumptions C59_argument_kinds_general.

Theorem C59_kinds_hash_alike :
  value_writes (GVar "x") = value_writes (GStr "x") /\ value_writes (GEnum "x") = value_writes (GStr "x") /\
  value_writes GNull = value_writes (GBool false) /\ value_writes (GInt 0) = value_writes (GFloat 0).
Proof. exact kinds_alike. Qed.
Print Assumptions C59_kinds_hash_alike.

(** Two fields under one alias are merged, whatever they are. *)
Theorem C59_same_alias_refuted : exists tgt src p, asks src p /\ forall H flags, exists r recs,
  merge_safe H flags false 0 tgt src = Ok (r, recs) /\ ~ asks r p.
Proof.
  exists [aliased "x" "a"], [aliased "x" "b"], [OnField "x" "b" None None None]. split.
  - apply (asks_here [aliased "x" "b"] (aliased "x" "b")). left. reflexivity.
  - intros H flags. destruct (same_alias_lost H flags) as [E N]. exists [aliased "x" "a"], (0%N, []). auto.
Qed.
Print Assumptions C59_same_alias_refuted.

(** Fields under different conditions are not compared. *)
Theorem C59_conditions_refuted : exists tgt src, forall H flags, exists r c recs,
  no_rivals tgt /\ no_rivals src /\ merge_safe H flags false 0 tgt src = Ok (r, (c, recs)) /\ ~ no_rivals r.
Proof. exists [leaf "f" None], [guarded "g" (Some "f") "c"]. exact guarded_rivals. Qed.
Print Assumptions C59_conditions_refuted.

(** Nor are fields inside fragments. *)
Theorem C59_fragments_not_compared : forall H flags,
  merge_safe H flags false 0 [leaf "f" None] [within "T" [aliased "f" "g"]] =
    Ok ([leaf "f" None; within "T" [aliased "f" "g"]], (0%N, [])).
Proof. exact within_rivals. Qed.
Print Assumptions C59_fragments_not_compared.

(** A new name may be that of a field copied later. *)
Theorem C59_fresh_name_refuted : exists tgt src, tidy tgt /\ tidy src /\ forall H, exists r recs,
  merge_safe H (false, true) false 0 tgt src = Ok (r, recs) /\ ~ tidy r.
Proof.
  exists [leaf "f" None], [aliased "f" "g"; taken].
  destruct (taken_collides (fun _ => 0%N)) as (R & recs & E & T1 & T2 & _).
  split; [exact T1|split; [exact T2|]]. intros H. destruct (taken_collides H) as (R' & recs' & E' & _ & _ & N).
  exists R', (1%N, recs'). auto.
Qed.
Print Assumptions C59_fresh_name_refuted.

(** With copies put first, the copy is renamed in place of the target's field. *)
Theorem C59_as_first_misnames : forall H,
  merge_safe H (true, false) true 0 [leaf "f" None] [aliased "f" "g"] =
    Ok ([SField "g" (Some "_internal_qp_alias_0") None None None false []; leaf "f" None],
        (1%N, [([GField "g" None 0 None], "_internal_qp_alias_0")])).
Proof. exact first_misnames. Qed.
Print Assumptions C59_as_first_misnames.

Theorem C59_no_flag_panics : forall H,
  merge_safe H (false, false) false 0 [leaf "f" None] [aliased "f" "g"] = Panic.
Proof. exact no_flag. Qed.
Print Assumptions C59_no_flag_panics.

(** A step that reads a renamed field, one segment below the step that returns it, reads it
    under its new name. *)
Theorem C59_reader_told_partial : forall H n a args inc skip o sub al g c tn l1 l2,
  (forall y, In y l1 -> ~ exists a' args' inc' skip' o' sub', y = SField n a' args' inc' skip' o' sub') ->
  (forall m b h d, g = GField m b h d -> m <> n) ->
  patch_one H ([GField n None (arguments_hash H args) c], al)
              (mkreader [g] [(tn, l1 ++ SField n a args inc skip o sub :: l2)]) =
  Patched (mkreader [g] [(tn, l1 ++ SField al (Some n) args inc skip o sub :: l2)]).
Proof. exact reader_near. Qed.
Print Assumptions C59_reader_told_partial.

(** Two segments below, it is not told. *)
Theorem C59_reader_told_refuted : forall H, exists r,
  safe_add_at H (false, true) false [user; profile]
    [SField "user" None None None None false [SField "profile" None None None None false [aliased "f" "g"]]]
    [leaf "f" None] =
    Some (Ok (r, [([GField "f" None 0 None], "_internal_qp_alias_0")])) /\
  asks r [OnField "user" "user" None None None; OnField "profile" "profile" None None None;
          OnField "_internal_qp_alias_0" "f" None None None] /\
  patch_one H ([GField "f" None 0 None], "_internal_qp_alias_0")
              (mkreader [user; profile] [("Profile", [leaf "f" None])]) =
    Patched (mkreader [user; profile] [("Profile", [leaf "f" None])]).
Proof. exact reader_deep. Qed.
Print Assumptions C59_reader_told_refuted.

(** A step whose path is shorter than that of a renamed field makes the planner panic. *)
Theorem C59_reader_panics : forall H, exists recs r c,
  merge_safe H (false, true) false 0 [SField "o" None None None None false [aliased "f" "g"]]
             [SField "o" None None None None false [leaf "f" None]] = Ok (r, (c, recs)) /\
  exists record, In record recs /\
    patch_one H record (mkreader [user] [("User", [leaf "f" None])]) = PatchPanic.
Proof. exact reader_short. Qed.
Print Assumptions C59_reader_panics.

(** A segment is renamed because it has the name of a renamed field, wherever it is. *)
Theorem C59_reader_path_renamed : forall H,
  patch_one H ([GField "f" None 0 None], "_internal_qp_alias_0")
              (mkreader [GField "f" None 0 None; user] [("User", [leaf "id" None])]) =
    Patched (mkreader [GField "_internal_qp_alias_0" None 0 None; user] [("User", [leaf "id" None])]).
Proof. exact reader_other. Qed.
Print Assumptions C59_reader_path_renamed.

(** Two fields with a rival, one joined and one copied. *)
Example C59_example :
  merge_safe (fun w => N.of_nat (length w)) (true, true) false 7
    [leaf "id" None; SField "o" None None None None false [leaf "f" None; aliased "_internal_qp_alias_7" "z"]]
    [SField "o" None None None None false [aliased "f" "g"; leaf "h" None]; leaf "k" None] =
  Ok ([leaf "id" None;
       SField "o" None None None None false
         [leaf "f" None; aliased "_internal_qp_alias_7" "z"; aliased "_internal_qp_alias_8" "g"; leaf "h" None];
       leaf "k" None],
      (9%N, [([GField "o" None 0 None; GField "g" None 0 None], "_internal_qp_alias_8")])).
Proof. vm_compute. reflexivity. Qed.
(** A [__typename] that one side shows in the response is shown after a merge; other fields keep the mark of the target. *)
Example C59_example_typename :
  merge_plain false [SField "__typename" None None None None true []; SField "a" None None None None true []]
    [SField "a" None None None None false []; SField "__typename" None None None None false []] =
  [SField "__typename" None None None None false []; SField "a" None None None None true []].
Proof. vm_compute. reflexivity. Qed.
