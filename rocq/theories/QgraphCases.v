(** Supergraphs and their graphs: users in two subgraphs, views that run into each other, names that do. *)
From Coq Require Import Ascii String List NArith Bool Arith Lia.
From Verif Require Import StrOrd StrUtil Ast QplanModel BestModel OverrideModel NormModel SafeModel PathModel PathSpec PathMain OpwalkModel OpwalkSpec OpwalkMain OpwalkCases QgraphModel QgraphSpec QgraphBase QgraphPhases QgraphGraph QgraphTotal.
Import ListNotations.
Local Open Scope string_scope.
Local Open Scope list_scope.

(** ** Checking supergraphs *)
Definition distinct (l : list string) : bool := forallb (fun x => Nat.eqb (count_occ string_dec l x) 1) l.
Lemma distinct_ok : forall l, distinct l = true -> NoDup l.
Proof.
  intros l H. apply (NoDup_count_occ' string_dec). intros x I. unfold distinct in H. rewrite forallb_forall in H. now apply Nat.eqb_eq, H.
Qed.
Definition lacks (c : ascii) (x : string) : bool := forallb (fun y => negb (Ascii.eqb y c)) (list_ascii_of_string x).
Lemma lacks_ok : forall c x, lacks c x = true -> without c x.
Proof. intros c x H I. unfold lacks in H. rewrite forallb_forall in H. specialize (H _ I). now rewrite Ascii.eqb_refl in H. Qed.
Definition type_ok (x : string) : bool := lacks "/" x && lacks "." x.
Lemma type_ok_ok : forall x, type_ok x = true -> clean_type x.
Proof. intros x H. apply andb_true_iff in H. destruct H as [A B]. split; now apply lacks_ok. Qed.
Definition opt_ok {A} (f : A -> bool) (o : option A) : bool := match o with Some x => f x | None => true end.
Definition fine_check (s : sstate) : bool :=
  distinct (map fst (s_defs s)) && distinct (map fst (s_names s)) && distinct (map snd (s_names s)) && forallb (fun x => distinct (map fst (d_own (snd x)))) (s_defs s) &&
  type_ok (s_query s) && opt_ok type_ok (s_mutation s) && opt_ok type_ok (s_subscription s) &&
  forallb (fun x => lacks "/" (snd x) && lacks " " (snd x)) (s_names s) && forallb (fun x => type_ok (fst x)) (s_defs s) &&
  forallb (fun x => forallb (fun y => lacks ":" (fst y) && type_ok (sf_type (snd y)) && forallb (fun j => opt_ok type_ok (jf_type j)) (sf_joins (snd y))) (d_own (snd x))) (s_defs s) &&
  forallb (fun x => forallb (fun y => type_ok (snd y)) (d_impl (snd x) ++ d_members (snd x))) (s_defs s).
Lemma fine_ok : forall s, fine_check s = true -> fine s.
Proof.
  intros s H. unfold fine_check in H. rewrite !andb_true_iff in H. destruct H as [[[[[[[[[[A B] C] D] E] G] I] J] K] L] M]. rewrite forallb_forall in D, J, K, L, M.
  split; [now apply distinct_ok|]. split; [now apply distinct_ok|]. split; [now apply distinct_ok|]. split; [intros n d X; apply distinct_ok; exact (D _ X)|]. split; [now apply type_ok_ok|].
  split; [intros m X; rewrite X in G; now apply type_ok_ok|]. split; [intros m X; rewrite X in I; now apply type_ok_ok|]. split; [|split; [intros n d X; apply type_ok_ok; exact (K _ X)|split]].
  - intros id g X. specialize (J _ X). apply andb_true_iff in J. destruct J. split; now apply lacks_ok.
  - intros n d f sf X Y. specialize (L _ X). cbn in L. rewrite forallb_forall in L. specialize (L _ Y). cbn in L. rewrite !andb_true_iff in L. destruct L as [[L1 L2] L3]. split; [now apply lacks_ok|]. split; [now apply type_ok_ok|].
    intros j t Z T. rewrite forallb_forall in L3. specialize (L3 _ Z). rewrite T in L3. now apply type_ok_ok.
  - intros n d id t X Y. specialize (M _ X). cbn in M. rewrite forallb_forall in M. apply type_ok_ok. apply (M (id, t)). apply in_or_app. exact Y.
Qed.

(** ** Users in two subgraphs *)
Definition in_ (id : string) : jfield := mkjf (Some id) None None None false None None false.
Definition ext (id : string) : jfield := mkjf (Some id) None None None true None None false.
Definition gives (id text : string) : jfield := mkjf (Some id) None (Some text) None false None None false.
Definition obj (types : list jtype) (fields : list (string * sfield)) : sdefn := mkdef DObject types fields [] [].
Definition one (t : string) (joins : list jfield) : sfield := mksf t false joins.
Definition keyed (id : string) : jtype := mkjt id (Some "id") true false.
Definition bare (id : string) : jtype := mkjt id None false false.
Definition read (id type text : string) : option (list sel) :=
  if String.eqb text "friend { name }" then Some [fld "friend" [fld "name" []]] else Some [fld text []].
Definition eq_tas (a b : tas) : bool := String.eqb (ts_type a) (ts_type b).
Definition ab : list (string * string) := [("A", "a"); ("B", "b")].
Definition users : sstate :=
  mkstate [("Query", obj [bare "A"] [("me", one "User" [in_ "A"])]);
           ("User", obj [keyed "A"; keyed "B"] [("id", one "ID" []); ("email", one "String" [in_ "B"])])] ab [] "Query" None None.
(** The graph of a supergraph, by the places *)
Definition places (b : builder) : list place := map place_of (b_nodes b).
Definition built (s : sstate) : builder := match build read eq_tas s with BOk b => b | _ => mkb [] [] end.
Lemma users_fine : fine users.
Proof. apply fine_ok. vm_compute. reflexivity. Qed.
Lemma users_built : build read eq_tas users = BOk (built users).
Proof. vm_compute. reflexivity. Qed.
Lemma users_places : places (built users) = [PRoot "Query"; PType "Query" "a"; PType "String" "a"; PType "User" "a"; PType "ID" "a"; PType "User" "b"; PType "String" "b"; PType "ID" "b"].
Proof. vm_compute. reflexivity. Qed.

(** ** Two views of users *)
Definition email : list jfield := [ext "A"; in_ "B"].
Definition blog : sstate :=
  mkstate [("Query", obj [bare "A"] [("me", one "User" [gives "A" "name"]); ("post", one "Post" [in_ "A"])]);
           ("Post", obj [bare "A"] [("author", one "User" [gives "A" "email"])]);
           ("User", obj [keyed "A"; keyed "B"] [("id", one "ID" []); ("name", one "String" email); ("email", one "String" email)])] ab [] "Query" None None.
Definition blog_defs : list (string * sdef) :=
  [("Query", mksdef false ["A"] [("me", [mkjoin (Some "A") false false None]); ("post", [mkjoin (Some "A") false false None])]);
   ("Post", mksdef false ["A"] [("author", [mkjoin (Some "A") false false None])]);
   ("User", mksdef false ["A"; "B"] [("id", []); ("name", [mkjoin (Some "A") true false None; mkjoin (Some "B") false false None]); ("email", [mkjoin (Some "A") true false None; mkjoin (Some "B") false false None])])].
Definition as_graph (id : string) : option string := if String.eqb id "A" then Some "a" else if String.eqb id "B" then Some "b" else None.
(** The edges of the paths that a walk over a graph finds *)
Definition kinds_of (b : builder) (r : res (list (list (list opath)))) : option (list (list (list (list gkind)))) :=
  match r with
  | Ok gs => Some (map (map (map (fun p => map (fun i => match nth_error (b_edges b) i with Some e => snd e | None => GEntry "" OpQuery end) (map sg_edge (o_segs p))))) gs)
  | _ => None
  end.
Definition my (f : string) : sel := fld "me" [fld f []].
Definition walked (s : sstate) (x : sel) : option (list (list (list (list gkind)))) :=
  kinds_of (built s) (walk (pgraph_of (built s)) plain_ctx none_of hash0 same_type blog_defs as_graph (Some 0) [x]).
Lemma blog_fine : fine blog.
Proof. apply fine_ok. vm_compute. reflexivity. Qed.
Lemma blog_built : build read eq_tas blog = BOk (built blog).
Proof. vm_compute. reflexivity. Qed.
Definition me_provides (text : string) : gkind := GField "me" "Query" false false (Some (gives "A" text)) None None.
Definition seen (f : string) : gkind := GField f "User" false false None None None.
Lemma blog_walk : walked blog (my "email") = Some [[[[GEntry "a" OpQuery; me_provides "name"; seen "email"]]]].
Proof. vm_compute. reflexivity. Qed.

(** ** A view of the friends of a user *)
Definition friends : sstate :=
  mkstate [("Query", obj [bare "A"] [("me", one "User" [gives "A" "friend { name }"])]);
           ("User", obj [keyed "A"; keyed "B"] [("id", one "ID" []); ("friend", one "User" [ext "A"; in_ "B"]); ("name", one "String" email)])] ab [] "Query" None None.
Lemma friends_fine : fine friends.
Proof. apply fine_ok. vm_compute. reflexivity. Qed.
Lemma friends_built : build read eq_tas friends = BOk (built friends).
Proof. vm_compute. reflexivity. Qed.
Lemma friends_walk : walked friends (my "name") = Some [[[[GEntry "a" OpQuery; me_provides "friend { name }"; seen "name"]]]].
Proof. vm_compute. reflexivity. Qed.

(** ** A subgraph with a slash in its name *)
Definition slashed : sstate :=
  mkstate [("Query", obj [bare "A"] [("me", one "User" [gives "A" "name"])]);
           ("User", obj [keyed "A"; keyed "B"] [("id", one "ID" []); ("name", one "String" email)])] [("A", "a"); ("B", "a/1")] [] "Query" None None.
Lemma slashed_built : build read eq_tas slashed = BOk (built slashed).
Proof. vm_compute. reflexivity. Qed.
(** ** An interface object *)
Definition objects : sstate :=
  mkstate [("Query", obj [bare "A"] [("node", one "Node" [in_ "A"])]);
           ("Node", mkdef DInterface [mkjt "A" (Some "id") true true; keyed "B"] [("id", one "ID" [])] [] []);
           ("Thing", mkdef DObject [keyed "B"] [("id", one "ID" [])] [("B", "Node")] [])] ab [] "Query" None None.
Lemma objects_fine : fine objects.
Proof. apply fine_ok. vm_compute. reflexivity. Qed.
Lemma objects_built : build read eq_tas objects = BOk (built objects).
Proof. vm_compute. reflexivity. Qed.
(** ** What is wrong with them *)
Lemma blog_hidden : forall d sf, defined blog "User" d -> has_field d "email" sf -> forall mj, offered "A" sf mj -> hidden mj.
Proof.
  intros d sf D [_ HF] mj O. repeat (destruct D as [D|D]; [try discriminate; injection D as <-|]); [|destruct D]. repeat (destruct HF as [HF|HF]; [try discriminate; injection HF as <-|]); [|destruct HF].
  apply (avail_ok _ _ (obj [keyed "A"; keyed "B"] [])) in O; [|now exists (keyed "A"); split; [left|]]. vm_compute in O. injection O as <-. now eexists.
Qed.
Lemma slashed_wrong : edge read slashed (PType "Query" "a") (me_provides "name") (PView "User" "a" 1) /\ ~ In (PView "User" "a" 1) (places (built slashed)) /\
  drawn (built slashed) (PType "Query" "a") (me_provides "name") (PType "User" "a/1").
Proof.
  split; [|split].
  - change (edge read slashed (PType "Query" "a") (GField "me" "Query" false (sf_list (one "User" [gives "A" "name"])) (Some (gives "A" "name")) None None) (PView (sf_type (one "User" [gives "A" "name"])) "a" 1)).
    eapply (e_view read slashed "Query" (obj [bare "A"] [("me", one "User" [gives "A" "name"])]) "A" "a" "me" (one "User" [gives "A" "name"]) (gives "A" "name") "name" 1%N None false).
    + now left.
    + exists (bare "A"). split; [now left|reflexivity].
    + now left.
    + split; [now left|]. split; [reflexivity|]. split; [reflexivity|]. exists [], [], [], []. now repeat split.
    + reflexivity.
    + split; [discriminate|]. intros [I|[]]. cbn in I. repeat (destruct I as [I|I]; [discriminate|]). destruct I.
  - intros I. vm_compute in I. repeat (destruct I as [I|I]; [discriminate|]). exact I.
  - exists 1, 5. do 2 eexists. vm_compute. tauto.
Qed.
Lemma objects_wrong : drawn (built objects) (PType "Node" "a") (GIobj "Thing" (mktas "Node" [fld "__typename" []])) (PType "Node" "a") /\ ~ well_typed (pgraph_of (built objects)) 0.
Proof.
  split; [exists 3, 3; do 2 eexists; vm_compute; tauto|]. intros (_ & _ & W).
  specialize (W "Thing" 15 (mkgedge 3 3 (InterfaceObjectMove "Thing" (mktas "Node" [fld "__typename" []]))) (mknode "Node" (Some "a") None)).
  assert (X : "Node" = "Thing"); [|discriminate]. apply W; [vm_compute; reflexivity|left; right; now eexists|vm_compute; reflexivity].
Qed.
Lemma users_closed : closed read users.
Proof.
  split; [|split].
  - intros name d j D J. assert (K : jt_graph j = "A" \/ jt_graph j = "B").
    { repeat (destruct D as [D|D]; [injection D as <- <-; repeat (destruct J as [<-|J]; [cbn; auto|]); destruct J|]). destruct D. }
    assert (R : forall text, exists l, read (jt_graph j) name text = Some l) by (intros text; unfold read; destruct (String.eqb text _); now eexists).
    split; [destruct K as [-> | ->]; [exists "a"; now left|exists "b"; right; now left]|]. split; intros; apply R.
  - intros name d id t D I. repeat (destruct D as [D|D]; [injection D as <- <-; destruct I|]). destruct D.
  - intros name d f sf j D [_ HF] J.
    assert (N : jf_override j = None /\ jf_requires j = None /\ jf_provides j = None).
    { repeat (destruct D as [D|D]; [injection D as <- <-; repeat (destruct HF as [HF|HF]; [injection HF as <- <-; repeat (destruct J as [<-|J]; [now repeat split|]); destruct J|]); destruct HF|]). destruct D. }
    destruct N as (-> & -> & ->). split; [discriminate|]. intros id _ _. split; discriminate.
Qed.
