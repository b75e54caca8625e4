(** Graphs to walk: one where the walk finds the leaves, one where it misses a path that is there, one
    whose subgraphs disagree on the type of a field. *)
From Coq Require Import String List NArith Bool Arith Lia.
From Verif Require Import StrOrd Ast QplanModel BestModel OverrideModel SafeModel PathModel PathSpec PathCycle PathBase PathBest PathSound PathTotal PathMain OpwalkModel OpwalkSpec OpwalkBase OpwalkSteps OpwalkSound OpwalkTotal OpwalkMain.
Import ListNotations.
Local Open Scope string_scope.
Local Open Scope list_scope.

(** ** Checking that types agree *)
Definition name_at (g : pgraph) (n : nat) : string := match nth_error (nodes g) n with Some x => n_name x | None => "" end.
Definition field_name (k : kind) : option string := match k with FieldMove n _ _ | ReentryMove n => Some n | _ => None end.
Definition type_name (k : kind) : option string := match k with AbstractMove t | InterfaceObjectMove t _ | Selfie t => Some t | _ => None end.
Definition is_move (k : kind) : bool := match k with EntityMove _ | InterfaceObjectMove _ _ => true | _ => false end.
Definition agree (g : pgraph) (root : nat) : bool :=
  forallb (fun e => (negb (is_move (g_kind e)) || String.eqb (name_at g (g_head e)) (name_at g (g_tail e))) &&
                    match type_name (g_kind e) with Some t => String.eqb (name_at g (g_tail e)) t | None => true end) (edges g) &&
  forallb (fun e => forallb (fun e' =>
    (negb (Nat.eqb (g_head e) root && Nat.eqb (g_head e') root) || String.eqb (name_at g (g_tail e)) (name_at g (g_tail e'))) &&
    match field_name (g_kind e), field_name (g_kind e') with
    | Some a, Some b => negb (String.eqb a b && String.eqb (name_at g (g_head e)) (name_at g (g_head e'))) || String.eqb (name_at g (g_tail e)) (name_at g (g_tail e'))
    | _, _ => true
    end) (edges g)) (edges g).
Lemma agree_ok : forall g root, agree g root = true -> well_typed g root.
Proof.
  intros g root A. apply andb_true_iff in A. destruct A as [A B]. rewrite forallb_forall in A, B.
  assert (NA : forall n x, nth_error (nodes g) n = Some x -> name_at g n = n_name x) by (intros n x E; unfold name_at; now rewrite E).
  assert (CM : forall t t', comes g t t' -> t' = t).
  { intros t t' C. induction C as [t|t i e h n C IH E M H N]; [reflexivity|]. rewrite <- IH, <- (NA _ _ H), <- (NA _ _ N). apply edge_in in E. specialize (A _ E). apply andb_true_iff in A. destruct A as [A _].
    assert (IM : is_move (g_kind e) = true) by (destruct M as [[r ->]|[o [r ->]]]; reflexivity). rewrite IM in A. apply String.eqb_eq in A. now symmetry. }
  assert (P : forall i j e e', edge_at g i e -> edge_at g j e' ->
    (g_head e = root -> g_head e' = root -> name_at g (g_tail e) = name_at g (g_tail e')) /\
    (forall f, field_name (g_kind e) = Some f -> field_name (g_kind e') = Some f -> name_at g (g_head e) = name_at g (g_head e') -> name_at g (g_tail e) = name_at g (g_tail e'))).
  { intros i j e e' E E'. apply edge_in in E. apply edge_in in E'. specialize (B _ E). rewrite forallb_forall in B. specialize (B _ E'). apply andb_true_iff in B. destruct B as [B1 B2]. split.
    - intros H H'. rewrite H, H', Nat.eqb_refl in B1. now apply String.eqb_eq.
    - intros f F F' N. rewrite F, F', N, !String.eqb_refl in B2. now apply String.eqb_eq. }
  assert (FN : forall f k, field_edge f k -> field_name k = Some f) by (intros f k [[r [m ->]]| ->]; reflexivity).
  split; [|split].
  - intros i j e e' n n' E E' H H' N N'. rewrite <- (NA _ _ N), <- (NA _ _ N'). destruct (P _ _ _ _ E E') as [Q _]. now apply Q.
  - intros f t i j e e' h h' n n' E E' F F' H H' C C' N N'. rewrite <- (NA _ _ N), <- (NA _ _ N'). destruct (P _ _ _ _ E E') as [_ Q]. apply (Q f); [now apply FN|now apply FN|].
    rewrite (NA _ _ H), (NA _ _ H'). apply CM in C. apply CM in C'. congruence.
  - intros t i e n E K N. rewrite <- (NA _ _ N). apply edge_in in E. specialize (A _ E). apply andb_true_iff in A. destruct A as [_ A].
    assert (T : type_name (g_kind e) = Some t) by (destruct K as [[-> |[r ->]]| ->]; reflexivity). rewrite T in A. now apply String.eqb_eq.
Qed.
Lemma no_unions_ok : forall g, forallb (fun n => match n_union n with None => true | Some _ => false end) (nodes g) = true -> consistent_unions g.
Proof.
  intros g F x y d d' I J U. rewrite forallb_forall in F. specialize (F _ I). rewrite U in F. discriminate.
Qed.
Definition joins_nodes (g : pgraph) : bool :=
  forallb (fun e => match nth_error (nodes g) (g_head e), nth_error (nodes g) (g_tail e) with
                    | Some _, Some n => match n_graph n with Some _ => true | None => false end
                    | _, _ => false
                    end) (edges g).
Lemma joins_ok : forall g, joins_nodes g = true -> sound_graph g.
Proof.
  intros g F e I. unfold joins_nodes in F. rewrite forallb_forall in F. specialize (F _ I).
  destruct (nth_error (nodes g) (g_head e)) as [h|]; [|discriminate]. destruct (nth_error (nodes g) (g_tail e)) as [n|]; [|discriminate].
  destruct (n_graph n) as [id|] eqn:G; [|discriminate]. split; [now exists h|]. now exists n, id.
Qed.

(** ** A user in two subgraphs *)
Definition plain_def (fields : list string) : sdef := mksdef false ["A"; "B"] (map (fun f => (f, [])) fields).
Definition user_defs : list (string * sdef) :=
  [("Query", plain_def ["user"]); ("User", plain_def ["id"; "name"]); ("ID", plain_def []); ("String", plain_def [])].
Definition name_of_user : sel := fld "user" [fld "name" []; fld "id" []].
Definition edges_of (r : res (list (list (list opath)))) : option (list (list (list (list nat)))) :=
  match r with Ok gs => Some (map (map (map (fun p => map sg_edge (o_segs p)))) gs) | _ => None end.
Lemma two_good : sound_graph two_graphs /\ well_typed two_graphs 0 /\ consistent_unions two_graphs.
Proof. split; [apply joins_ok; vm_compute; reflexivity|]. split; [apply agree_ok; vm_compute; reflexivity|apply no_unions_ok; vm_compute; reflexivity]. Qed.
Lemma two_walk : edges_of (walk two_graphs plain_ctx none_of hash0 same_type user_defs Some (Some 0) [name_of_user]) = Some [[[[0; 1; 3; 5]]; [[0; 1; 2]]]].
Proof. vm_compute. reflexivity. Qed.

(** ** Media in three subgraphs, whose books have a title in the third *)
Definition media_id : tas := mktas "Media" [fld "id" []].
Definition media_graph : pgraph :=
  mkpgraph [mknode "Query" None None; mknode "Query" (Some "A") None; mknode "Media" (Some "A") None; mknode "Media" (Some "B") None;
            mknode "Book" (Some "B") None; mknode "Media" (Some "C") None; mknode "Book" (Some "C") None; mknode "String" (Some "C") None;
            mknode "ID" (Some "A") None]
           [mkgedge 0 1 (Entrypoint "A"); step_to "media" 1 2; step_to "id" 2 8; mkgedge 2 3 (EntityMove media_id); mkgedge 2 5 (EntityMove media_id);
            mkgedge 3 4 (AbstractMove "Book"); mkgedge 5 6 (AbstractMove "Book"); step_to "title" 6 7].
Definition media_defs : list (string * sdef) :=
  [("Query", mksdef false ["A"] [("media", [])]); ("Media", mksdef true ["A"; "B"; "C"] [("id", [])]);
   ("Book", mksdef false ["B"; "C"] [("title", [mkjoin (Some "C") false false None])]); ("String", plain_def []); ("ID", plain_def [])].
Definition on_book : sel := SFrag "Book" None None [fld "title" []].
Definition media_query : sel := fld "media" [on_book].
Lemma media_good : sound_graph media_graph /\ well_typed media_graph 0 /\ consistent_unions media_graph.
Proof. split; [apply joins_ok; vm_compute; reflexivity|]. split; [apply agree_ok; vm_compute; reflexivity|apply no_unions_ok; vm_compute; reflexivity]. Qed.
Definition on_field (n : string) (sub : list sel) : target := TField (mkfsel n None None None None sub) None.
Definition m1 : opath := entry (0, mkgedge 0 1 (Entrypoint "A")).
Definition m2 : opath := advance media_graph m1 1 (step_to "media" 1 2) None (on_field "media" [on_book]).
Definition m3 : opath := advance media_graph m2 4 (mkgedge 2 5 (EntityMove media_id)) None (TType "Book" None).
Definition m4 : opath := advance media_graph m3 6 (mkgedge 5 6 (AbstractMove "Book")) None (TType "Book" None).
Definition m5 : opath := advance media_graph m4 7 (step_to "title" 6 7) None (on_field "title" []).
Lemma media_missed : walk media_graph plain_ctx none_of hash0 same_type media_defs Some (Some 0) [media_query] = Err (NoPathsFound "title") /\
  reached media_graph plain_ctx none_of 0 [media_query; on_book; fld "title" []] m5.
Proof.
  split; [vm_compute; reflexivity|].
  assert (T2 : takes media_graph plain_ctx none_of (stand m1) 1 (stand m2)) by (apply takes_ok; [reflexivity|reflexivity|]; split; [intros ? ? ? F; injection F as <- <- <-; exact Logic.I|discriminate]).
  assert (T3 : takes media_graph plain_ctx none_of (stand m2) 4 (stand m3)).
  { apply takes_ok; [reflexivity|reflexivity|]. split; [discriminate|]. intros r c E. injection E as <-.
    apply (by_id_met media_graph (stand m2) 2 (step_to "id" 2 8) (mknode "ID" (Some "A") None)); reflexivity. }
  assert (T4 : takes media_graph plain_ctx none_of (stand m3) 6 (stand m4)) by (apply takes_ok; [reflexivity|reflexivity|]; split; [intros ? ? ? F; discriminate|discriminate]).
  assert (T5 : takes media_graph plain_ctx none_of (stand m4) 7 (stand m5)) by (apply takes_ok; [reflexivity|reflexivity|]; split; [intros ? ? ? F; injection F as <- <- <-; exact Logic.I|discriminate]).
  split.
  - exists 7. unfold m5, m4, m3, m2, m1. vm_compute.
    eapply (chain_cons _ _ _ _ (mkgedge 0 1 (Entrypoint "A")) 1000%N); try reflexivity; [exact (edge_cost_ok (Entrypoint "A"))|].
    eapply (chain_cons _ _ _ _ (step_to "media" 1 2) 1%N); try reflexivity; [exact (edge_cost_ok (FieldMove "media" None no_override))|].
    eapply (chain_cons _ _ _ _ (mkgedge 2 5 (EntityMove media_id)) 1002%N); try reflexivity; [exact (edge_cost_ok (EntityMove media_id))|].
    eapply (chain_cons _ _ _ _ (mkgedge 5 6 (AbstractMove "Book")) 1000%N); try reflexivity; [exact (edge_cost_ok (AbstractMove "Book"))|].
    eapply (chain_cons _ _ _ _ (step_to "title" 6 7) 1%N); try reflexivity; [exact (edge_cost_ok (FieldMove "title" None no_override))|]. constructor.
  - split; [reflexivity|].
    exists 0, (mkgedge 0 1 (Entrypoint "A")), (mkpseg 0 1 1000 None None None), (tl (o_segs m5)).
    repeat (split; [reflexivity|]).
    change [media_query; on_book; fld "title" []] with ((([] ++ [media_query]) ++ [on_book]) ++ [fld "title" []]).
    change (tl (o_segs m5)) with ((([] ++ tl (o_segs m2)) ++ skipn 2 (o_segs m4)) ++ skipn 4 (o_segs m5)).
    change (at_node (g_tail (mkgedge 0 1 (Entrypoint "A"))) None) with (stand m1).
    eapply traces_more with (s1 := stand m4); [eapply traces_more with (s1 := stand m2); [eapply traces_more with (s1 := stand m1); [constructor|]|]|].
    + eapply OpwalkSpec.step_field with (l := []) (s1 := stand m1) (i := 1) (s2 := stand m2); [constructor|reflexivity|left; do 2 eexists; reflexivity|exact T2|reflexivity|constructor; [split; reflexivity|constructor]|apply narrower_refl].
    + eapply step_type with (l := [] ++ [4]) (s1 := stand m3) (i := 6); [discriminate|discriminate|eapply moves_more; [constructor|reflexivity|left; eexists; reflexivity|exact T3]|reflexivity|left; reflexivity|exact T4|reflexivity|constructor; [split; reflexivity|constructor; [split; reflexivity|constructor]]].
    + eapply OpwalkSpec.step_field with (l := []) (s1 := stand m4) (i := 7) (s2 := stand m5); [constructor|reflexivity|left; do 2 eexists; reflexivity|exact T5|reflexivity|constructor; [split; reflexivity|constructor]|apply narrower_refl].
Qed.

(** ** An item that is a [Book] in one subgraph and an [Item] in another *)
Definition item_graph : pgraph :=
  mkpgraph [mknode "Query" None None; mknode "Query" (Some "A") None; mknode "Book" (Some "A") None; mknode "String" (Some "A") None;
            mknode "Query" (Some "B") None; mknode "Item" (Some "B") None; mknode "String" (Some "B") None; mknode "Book" (Some "B") None]
           [mkgedge 0 1 (Entrypoint "A"); step_to "item" 1 2; step_to "title" 2 3; mkgedge 0 4 (Entrypoint "B"); step_to "item" 4 5; step_to "title" 5 6;
            mkgedge 5 7 (AbstractMove "Book"); step_to "title" 7 6].
Definition item_defs : list (string * sdef) :=
  [("Query", mksdef false ["A"; "B"] [("item", [])]); ("Item", mksdef true ["A"; "B"] [("title", [])]);
   ("Book", mksdef false ["A"; "B"] [("title", [])]); ("String", plain_def [])].
Definition item_query : sel := fld "item" [on_book].
Lemma item_good : sound_graph item_graph /\ consistent_unions item_graph.
Proof. split; [apply joins_ok; vm_compute; reflexivity|apply no_unions_ok; vm_compute; reflexivity]. Qed.
Lemma item_walk : edges_of (walk item_graph plain_ctx none_of hash0 same_type item_defs Some (Some 0) [item_query]) = Some [[[[0; 1; 2]; [3; 4; 5]]]].
Proof. vm_compute. reflexivity. Qed.
(** ** A root without edges *)
Lemma no_entry : walk (mkpgraph [mknode "Query" None None] []) plain_ctx none_of hash0 same_type [] Some (Some 0) [on_book] = Panic.
Proof. vm_compute. reflexivity. Qed.

(** ** An interface in two subgraphs, of which the second alone has the name *)
Definition on_type (t : string) : sel := SFrag t None None [fld "id" []].
Definition shared_graph : pgraph :=
  mkpgraph [mknode "Query" None None; mknode "Query" (Some "A") None; mknode "Node" (Some "A") None; mknode "ID" (Some "A") None;
            mknode "Query" (Some "B") None; mknode "Node" (Some "B") None; mknode "ID" (Some "B") None; mknode "String" (Some "B") None;
            mknode "X" (Some "A") None; mknode "Y" (Some "A") None; mknode "X" (Some "B") None; mknode "Y" (Some "B") None]
           [mkgedge 0 1 (Entrypoint "A"); step_to "node" 1 2; step_to "id" 2 3; mkgedge 0 4 (Entrypoint "B"); step_to "node" 4 5; step_to "id" 5 6; step_to "name" 5 7;
            mkgedge 2 8 (AbstractMove "X"); mkgedge 2 9 (AbstractMove "Y"); step_to "id" 8 3; step_to "id" 9 3;
            mkgedge 5 10 (AbstractMove "X"); mkgedge 5 11 (AbstractMove "Y"); step_to "id" 10 6; step_to "id" 11 6].
Definition shared_defs : list (string * sdef) :=
  [("Query", mksdef false ["A"; "B"] [("node", [])]); ("Node", mksdef true ["A"; "B"] [("id", []); ("name", [mkjoin (Some "B") false false None])]);
   ("X", plain_def ["id"]); ("Y", plain_def ["id"]); ("ID", plain_def []); ("String", plain_def [])].
Lemma shared_walk :
  edges_of (walk shared_graph plain_ctx none_of hash0 same_type shared_defs Some (Some 0) [fld "node" [on_type "X"; on_type "Y"; fld "name" []]])
    = Some [[[[3; 4; 11; 13]]; [[3; 4; 12; 14]]; [[3; 4; 6]]]] /\
  edges_of (walk shared_graph plain_ctx none_of hash0 same_type shared_defs Some (Some 0) [fld "node" [on_type "X"; fld "name" []]])
    = Some [[[[0; 1; 7; 9]; [3; 4; 11; 13]]; [[3; 4; 6]]]].
Proof. split; vm_compute; reflexivity. Qed.
(** ** A union with other members in another subgraph *)
Definition in_pet (graph member : string) (members : list string) : opath :=
  mkopath 0 [] 0 (Some (mkuctx "Query" "pet" graph member members)).
Lemma pets : narrow [in_pet "A" "Cat" ["Cat"; "Dog"]; in_pet "B" "Cat" ["Cat"; "Fish"]; in_pet "B" "Fish" ["Cat"; "Fish"]]
  = [in_pet "A" "Cat" ["Cat"]; in_pet "B" "Cat" ["Cat"]].
Proof. vm_compute. reflexivity. Qed.
