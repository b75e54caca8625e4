(** Operations with fragments whose denied fields stay in the response plan. *)
From Coq Require Import String List Bool Arith.
From Verif Require Import StrOrd JsonModel Ast ProjModel ProjSpec TrieModel PlanModel PlanSpec PlanRefute
  AuthModel AuthSpec NullSpec.
Import ListNotations.
Local Open Scope string_scope.
Local Open Scope list_scope.

(** The same schema as the authorization filter reads it. *)
Definition auth_schema : schema :=
  AuthModel.mkschema (map (fun tf => (fst tf, map (fun f => (fst f, (fst (snd f), is_non_null (snd (snd f))))) (snd tf))) ex_types)
           [("Node", ["Admin"; "Node"; "User"])].
Definition open_dirs := mkdirs false [].
(** [denied] is the field with [@authenticated]. *)
Definition auth_defs (denied : string * string) : list tydef :=
  map (fun tf => mktydef true (fst tf) open_dirs
         (map (fun f => (fst f, if String.eqb (fst tf) (fst denied) && String.eqb (fst f) (snd denied) then mkdirs true [] else open_dirs)) (snd tf))) ex_types.
Definition auth_meta denied := match build auth_schema (auth_defs denied) with inl m => m | inr _ => AuthModel.mkmeta [] [] [] [] end.
Definition an_op sels := mkop None (Some KQuery) sels None.
Definition all_true (_ : string) := true.

(** The response to an unauthenticated caller [sels] with the field [denied] shows [v] at [keys], for the data [d]. *)
Definition shown_to_stranger (denied : string * string) (sels : list sel) (d : value) (keys : list string) (v : out) : Prop :=
  exists op' t errs ps o r,
    apply_authorization auth_schema (auth_meta denied) all_true None "Query" (an_op sels) false = Modified op' t errs /\
    from_operation ex same_order "Query" sels = BOk ps /\
    comp_root ex all_true "Query" (rebuild_nulled_plan t ps) d r /\
    In o (occs auth_schema all_true sels "Query" []) /\ (o_parent o, o_name o) = denied /\ field_keys (o_path o) = keys /\
    found r keys v.

(** [node { ... on User { a { b { secret } } } }] *)
Definition op_deep := [fld "node" [SFrag "User" None None [fld "a" [fld "b" [fld "secret" []]]]]].
Definition data_deep :=
  VObj [("node", VObj [("__typename", VStr "User"); ("a", VObj [("b", VObj [("secret", VStr "s")])])])].
(** [node { ... on Node @include(if: $x) { name } }] *)
Definition op_abstract := [fld "node" [SFrag "Node" (Some "x") None [fld "name" []]]].
Definition data_name := VObj [("node", VObj [("__typename", VStr "Admin"); ("name", VStr "s")])].
(** [node { name ... on User { name } }] *)
Definition op_split := [fld "node" [fld "name" []; SFrag "User" None None [fld "name" []]]].

Ltac shown o r :=
  do 4 eexists; exists o, r;
  split; [vm_compute; reflexivity|]; split; [vm_compute; reflexivity|];
  split; [|split; [vm_compute; tauto|split; [reflexivity|split; [reflexivity|]]]];
  [match goal with |- comp_root _ _ _ ?l _ _ => let l' := eval vm_compute in l in change l with l' end; constructor;
   repeat first [apply fs_nil
     | apply fs_absent; [reflexivity|]
     | eapply (fs_shown _ _ (Plan _ _ _ _ _ _ _)); [eapply f_value; [reflexivity|reflexivity|reflexivity|reflexivity|]|discriminate|]
     | apply comp_leaf; exact I
     | eapply comp_obj; [reflexivity|]]
  |repeat (eapply found_member; [left; reflexivity|]); constructor].

Lemma leak_deep : shown_to_stranger ("B", "secret") op_deep data_deep ["node"; "a"; "b"; "secret"] (OLeaf (VStr "s")).
Proof. shown (mkocc [SegField "node"; SegFrag "User"; SegField "a"; SegField "b"; SegField "secret"] "B" "secret" true) (OObj [("node", OObj [("a", OObj [("b", OObj [("secret", OLeaf (VStr "s"))])])])]). Qed.
Lemma leak_abstract : shown_to_stranger ("Node", "name") op_abstract data_name ["node"; "name"] (OLeaf (VStr "s")).
Proof. shown (mkocc [SegField "node"; SegFrag "Node"; SegField "name"] "Node" "name" true) (OObj [("node", OObj [("name", OLeaf (VStr "s"))])]). Qed.
Lemma leak_split : shown_to_stranger ("Node", "name") op_split data_name ["node"; "name"] (OLeaf (VStr "s")).
Proof. shown (mkocc [SegField "node"; SegField "name"] "Node" "name" true) (OObj [("node", OObj [("name", OLeaf (VStr "s"))])]). Qed.

Lemma auth_unique denied : unique_names (auth_defs denied).
Proof.
  split.
  - unfold auth_defs. rewrite map_map. cbn [k_name]. apply (NoDup_count_occ' string_dec). intros x Hx. cbn in Hx.
    repeat (destruct Hx as [<-|Hx]; [reflexivity|]). destruct Hx.
  - intros d Hd. unfold auth_defs in Hd. apply in_map_iff in Hd. destruct Hd as (tf & <- & Htf). cbn [k_fields]. rewrite map_map. cbn [fst].
    apply (NoDup_count_occ' string_dec). cbn in Htf. intros x.
    repeat (destruct Htf as [<-|Htf]; [cbn; intros Hx; repeat (destruct Hx as [<-|Hx]; [reflexivity|]); destruct Hx|]). destruct Htf.
Qed.
Lemma fragments_refuted :
  exists Sc defs m vars j root op op' t errs M order vt ps d r o v,
    unique_names defs /\ build Sc defs = inl m /\
    apply_authorization Sc m vars j root op false = Modified op' t errs /\
    from_operation M order root (op_sels op) = BOk ps /\
    comp_root M vt root (rebuild_nulled_plan t ps) d r /\
    In o (occs Sc vars (op_sels op) root []) /\ ~ allowed Sc defs j (o_parent o) (o_name o) /\
    found r (field_keys (o_path o)) v /\ v <> ONull.
Proof.
  destruct leak_deep as (op' & t & errs & ps & o & r & H1 & H2 & H3 & H4 & H5 & H6 & H7).
  exists auth_schema, (auth_defs ("B", "secret")), (auth_meta ("B", "secret")), all_true, None, "Query", (an_op op_deep), op', t, errs, ex, same_order, all_true, ps, data_deep, r, o, (OLeaf (VStr "s")).
  split; [apply auth_unique|]. split; [vm_compute; reflexivity|]. split; [exact H1|]. split; [exact H2|]. split; [exact H3|]. split; [exact H4|].
  split; [|split; [rewrite H6; exact H7|discriminate]]. injection H5 as -> ->. intros (_ & Hf & _).
  specialize (Hf (mktydef true "B" open_dirs [("secret", mkdirs true [])]) (mkdirs true [])).
  assert (E : satisfies None (mkdirs true [])).
  { apply Hf; [cbn; tauto|reflexivity|reflexivity|left; reflexivity]. }
  cbn in E. apply E; reflexivity.
Qed.
