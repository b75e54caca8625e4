From Coq Require Import String List Bool.
From Verif Require Import Ast CoerceModel CondModel NormModel NormSpec NormProofs NormDocs NormTotal.
Import ListNotations.
Local Open Scope string_scope.
Local Open Scope list_scope.

(** Spreads are expanded exactly when every fragment that is spread exists and none spreads itself. *)
Theorem C34_expands_iff_acyclic : forall ds, (exists out, inline_doc ds = Ok out) <->
  (forall n, doc_mentions ds n -> defined (fragment_map ds) n) /\ (forall n, ~ on_cycle (fragment_map ds) n).
Proof. exact inline_ok_iff. Qed.
Print Assumptions C34_expands_iff_acyclic.

(** An error names what is wrong; the recursion never runs out. *)
Theorem C34_errors : forall ds e, inline_doc ds = Err e ->
  (exists n, e = ENotFound n /\ ~ defined (fragment_map ds) n /\ doc_mentions ds n) \/
  (exists n c, e = ECyclic n /\ doc_mentions ds n /\ on_cycle (fragment_map ds) c).
Proof. exact inline_err. Qed.
Print Assumptions C34_errors.

Theorem C34_nothing_left : forall ds out, inline_doc ds = Ok out -> forall n, ~ doc_mentions out n.
Proof. exact (fun ds out H => proj2 (proj2 (inline_ok ds out H))). Qed.
Print Assumptions C34_nothing_left.

(** What is normalized is the chosen operation, and it selects the same response fields. *)
Theorem C33_meaning_kept : forall sc should_expand root_type fuel on, schema_ok sc -> lawful on ->
  forall name ds out, normalize sc should_expand root_type fuel name ds = Ok out ->
  exists k n s s' root, chosen name ds = Some (NOp k n s) /\ out = [NOp k n s'] /\ root_type k = Some root /\
    forall p, typed sc root p -> (selects sc on (fragment_map ds) s p <-> selects sc on [] s' p).
Proof. exact normalize_ok. Qed.
Print Assumptions C33_meaning_kept.

(** [@skip] and [@include], for any variables, are directives of the kind the theorem speaks of. *)
Theorem C33_skip_include_lawful : forall vars, lawful (enabled vars).
Proof. exact enabled_lawful. Qed.
Print Assumptions C33_skip_include_lawful.

(** A valid operation is never rejected, whatever the expansion policy, and the recursion needs only so much room. *)
Theorem C33_valid_operations_normalize : forall sc should_expand root_type name ds,
  schema_ok sc -> complete sc -> valid sc root_type name ds ->
  exists enough_fuel, forall fuel, enough_fuel <= fuel ->
  exists out, normalize sc should_expand root_type fuel name ds = Ok out.
Proof. exact normalize_total. Qed.
Print Assumptions C33_valid_operations_normalize.

(** * Examples *)
Definition f (n : string) (sub : list nsel) : nsel := NField None n [] [] sub.
Definition inc (v : string) : directive := {| d_name := "include"; d_args := [("if", GVar v)] |}.
Definition skip_lit (b : bool) : directive := {| d_name := "skip"; d_args := [("if", GBool b)] |}.
Definition ex_schema : schema :=
  [("Query", DObject [("node", "Node"); ("me", "User")] []); ("Node", DInterface [("id", "ID"); ("owner", "Node")]);
   ("User", DObject [("id", "ID"); ("owner", "User"); ("email", "String")] ["Node"]);
   ("Post", DObject [("id", "ID"); ("owner", "User"); ("title", "String")] ["Node"]);
   ("Item", DUnion ["User"; "Post"]); ("ID", DLeaf); ("String", DLeaf)].
Definition ex_root (k : opkind) : option string := match k with KQuery => Some "Query" | _ => None end.
Definition ex_norm := normalize ex_schema (fun _ n => String.eqb n "owner") ex_root 9 None.

Example ex_fragments :
  ex_norm [NOp KQuery None [f "node" [NSpread "A" []; f "id" []]; f "me" [NInline (Some "Node") [] [f "id" []]; f "id" []]];
           NFrag "A" "Node" [NSpread "B" []; f "owner" [f "id" []]];
           NFrag "B" "Item" [NInline (Some "User") [inc "x"] [NField (Some "email") "email" [] [] []; NField None "id" [] [skip_lit true] []]]]
  = Ok [NOp KQuery None
      [f "node" [NInline (Some "User") [inc "x"] [f "email" []];
                 NInline (Some "Post") [] [f "owner" [f "id" []]];
                 NInline (Some "User") [] [f "owner" [f "id" []]];
                 f "id" []];
       f "me" [f "id" []]]].
Proof. vm_compute. reflexivity. Qed.
Example ex_cycle :
  inline_doc [NOp KQuery None [NSpread "A" []]; NFrag "A" "Query" [f "me" [NSpread "B" []]];
              NFrag "B" "User" [f "owner" [NInline None [] [NSpread "B" []]]]] = Err (ECyclic "B").
Proof. vm_compute. reflexivity. Qed.
Example ex_chain_cycle :
  inline_doc [NFrag "A" "User" [NSpread "B" []]; NFrag "B" "User" [NSpread "A" []]] = Err (ECyclic "B").
Proof. vm_compute. reflexivity. Qed.
Example ex_chain :
  inline_doc [NFrag "A" "User" [NSpread "B" []]; NFrag "B" "User" [NSpread "C" []]; NFrag "C" "User" [f "id" []]]
  = Ok [NFrag "A" "User" [f "id" []]; NFrag "B" "User" [f "id" []]; NFrag "C" "User" [f "id" []]].
Proof. vm_compute. reflexivity. Qed.
Example ex_missing : inline_doc [NOp KQuery None [f "me" [NSpread "Z" []]]] = Err (ENotFound "Z").
Proof. vm_compute. reflexivity. Qed.
Example ex_named : drop_unused (Some "B") [NOp KQuery (Some "A") []; NOp KQuery (Some "B") [f "me" []]; NFrag "F" "User" []]
  = Ok [NOp KQuery (Some "B") [f "me" []]; NFrag "F" "User" []].
Proof. vm_compute. reflexivity. Qed.
