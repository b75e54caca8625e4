From Coq Require Import String List Bool NArith Lia.
From Verif Require Import NegModel NegSpec.
Import ListNotations.
Local Open Scope string_scope.
Local Open Scope list_scope.

Lemma filter_no_boundary : forall l, filter (fun e : string * string => negb (String.eqb (fst e) "boundary")) l = no_boundary l.
Proof.
  induction l as [|[n v] r IH]; [reflexivity|]. cbn [filter no_boundary fst]. destruct (string_dec n "boundary") as [->|N].
  - rewrite String.eqb_refl. exact IH.
  - apply String.eqb_neq in N. rewrite N. cbn [negb]. now rewrite IH.
Qed.
Lemma mixed_iff m : mixed m = true <-> ty m = "multipart" /\ subty m = "mixed".
Proof. unfold mixed. rewrite andb_true_iff, !String.eqb_eq. tauto. Qed.
Lemma strip_cleaned a b : cleaned a b -> strip a = b.
Proof.
  intros [[H ->]|[H ->]]; unfold strip.
  - rewrite (proj2 (mixed_iff a) H), filter_no_boundary. reflexivity.
  - destruct (mixed a) eqn:E; [apply mixed_iff in E; tauto|reflexivity].
Qed.
Lemma map_strip l l' : Forall2 cleaned l l' -> map strip l = l'.
Proof. induction 1; [reflexivity|]. cbn [map]. f_equal; [now apply strip_cleaned|assumption]. Qed.
Lemma strip_id m : mixed m && match param "boundary" m with Some _ => true | None => false end = false -> strip m = m.
Proof.
  unfold strip. destruct (mixed m); [|reflexivity]. cbn [andb]. unfold param. intros H. destruct m as [t u x l]; cbn in *. f_equal.
  induction l as [|[n v] r IH]; [reflexivity|]. cbn in *. destruct (String.eqb n "boundary"); [discriminate|]. cbn. f_equal. apply IH. exact H.
Qed.
Lemma strip_if l :
  (if existsb (fun m => mixed m && match param "boundary" m with Some _ => true | None => false end) l then map strip l else l) = map strip l.
Proof.
  destruct (existsb _ l) eqn:E; [reflexivity|]. induction l as [|m l IH]; [reflexivity|]. cbn [existsb] in E. apply orb_false_iff in E as [A B].
  cbn [map]. rewrite (strip_id m A), <- (IH B). reflexivity.
Qed.

Section Pick.
  Variable pick : list media -> list media -> option media.
  Hypothesis picks : forall a o m, pick a o = Some m -> In m o.
  Lemma media_html m : media_eqb m html = true <-> m = s_html.
  Proof.
    destruct m as [t u x l]. unfold media_eqb, html, s_html; cbn [ty subty suffix params]. split.
    - intros H. apply andb_true_iff in H as [H P]. apply andb_true_iff in H as [H S]. apply andb_true_iff in H as [A B]. apply String.eqb_eq in A, B. subst.
      destruct x; [discriminate|]. destruct l; [reflexivity|discriminate].
    - intros H. injection H as -> -> -> ->. reflexivity.
  Qed.
  Lemma pick_single a : match bind (pick a singles) single_of with Some s => Some (of_single s) | None => None end = pick a [s_json; s_graphql].
  Proof. change singles with [s_json; s_graphql]. destruct (pick a [s_json; s_graphql]) as [m|] eqn:E; [|reflexivity]. apply picks in E as [<-|[<-|[]]]; reflexivity. Qed.
  Lemma pick_stream a : match bind (pick a streams) stream_of with Some s => Some (of_stream s) | None => None end = pick a [s_multipart; s_events; s_apollo].
  Proof.
    change streams with [s_multipart; s_events; s_apollo]. destruct (pick a [s_multipart; s_events; s_apollo]) as [m|] eqn:E; [|reflexivity].
    apply picks in E as [<-|[<-|[<-|[]]]]; reflexivity.
  Qed.
  Definition everything := [s_json; s_graphql; s_multipart; s_events; s_apollo; s_html].
  Lemma laboratory_iff lab get h :
    negotiate pick lab get h = inl Laboratory <-> lab = true /\ get = true /\ exists a, h = Some a /\ pick (map strip a) everything = Some s_html.
  Proof.
    destruct h as [a|]; [|split; [discriminate|intros (_ & _ & x & Q & _); discriminate]].
    unfold negotiate. rewrite strip_if. change (singles ++ streams ++ [html]) with everything.
    destruct (lab && get && match pick (map strip a) everything with Some m => media_eqb m html | None => false end) eqn:E.
    - apply andb_true_iff in E as [L E]. apply andb_true_iff in L as [L G]. destruct (pick (map strip a) everything) as [m|] eqn:P; [|discriminate].
      apply media_html in E. subst m. split; [intros _|reflexivity]. repeat split; try assumption. exists a. now split.
    - split.
      + destruct (bind (pick (map strip a) singles) single_of), (bind (pick (map strip a) streams) stream_of); discriminate.
      + intros (-> & -> & x & Q & P). injection Q as <-. rewrite P in E. discriminate E.
  Qed.
  Lemma mode_of lab get a : negotiate pick lab get (Some a) <> inl Laboratory ->
    match negotiate pick lab get (Some a) with
    | inl m => mode_media m = (pick (map strip a) [s_json; s_graphql], pick (map strip a) [s_multipart; s_events; s_apollo])
    | inr k => k = UnsupportedContentType /\ pick (map strip a) [s_json; s_graphql] = None /\ pick (map strip a) [s_multipart; s_events; s_apollo] = None
    end.
  Proof.
    unfold negotiate. rewrite strip_if. destruct (lab && get && _); [congruence|]. intros _. rewrite <- (pick_single (map strip a)), <- (pick_stream (map strip a)).
    destruct (bind (pick (map strip a) singles) single_of), (bind (pick (map strip a) streams) stream_of); try reflexivity. repeat split.
  Qed.
End Pick.
Lemma boundary_free pick lab get a b c : Forall2 cleaned a c -> Forall2 cleaned b c -> negotiate pick lab get (Some a) = negotiate pick lab get (Some b).
Proof. intros A B. unfold negotiate. rewrite !strip_if, (map_strip _ _ A), (map_strip _ _ B). reflexivity. Qed.

Lemma secret plugins k t t' m : handle_error plugins (Internal k t) m = handle_error plugins (Internal k t') m.
Proof. reflexivity. Qed.
Lemma secret_message k t m r : handle_error no_plugins (Internal k t) m = Some r -> exists c, r_errors r = [mkgerror "Internal server error" (Some c)].
Proof. intros H. exists (internal_code k). destruct m; cbn in H; try discriminate; injection H as <-; reflexivity. Qed.
Lemma hard_status e : sane e -> (400 <= status_of e false)%N.
Proof. destruct e as [k t|k t]; destruct k; cbn; intros; lia. Qed.
Lemma soft_status e : sane e -> (status_of e true = 200%N <-> soft e).
Proof. destruct e as [k t|k t]; destruct k; cbn; intros; split; intros; try lia; try tauto; try discriminate. Qed.
Lemma soft_or_hard e : sane e -> soft e \/ (400 <= status_of e true)%N.
Proof. destruct e as [k t|k t]; destruct k; cbn; intros; try (left; exact I); right; lia. Qed.
Lemma framed plugins e m r : handle_error plugins e m = Some r ->
  r_framing r = match m with SingleOnly s | Dual s _ => Whole s | StreamOnly t => Streamed t | Laboratory => Page end.
Proof. unfold handle_error. destruct (plugins _ _). destruct m; intros H; try discriminate; injection H as <-; reflexivity. Qed.
Lemma panics plugins e m : handle_error plugins e m = None <-> m = Laboratory.
Proof. unfold handle_error. destruct (plugins _ _). destruct m; split; intros; try discriminate; reflexivity. Qed.
Lemma errors_kept e m r : handle_error no_plugins e m = Some r ->
  match e with Client (ValidationErrors l) _ | Client (AuthorizationFailed l) _ => r_errors r = l | Client _ t => exists c, r_errors r = [mkgerror t (Some c)] | Internal _ _ => r_errors r <> [] end.
Proof.
  intros H. assert (E : r_errors r = errors_of e) by (destruct m; cbn in H; try discriminate; injection H as <-; reflexivity). rewrite E.
  destruct e as [k t|k t]; [destruct k|]; cbn; try reflexivity; try discriminate; eexists; reflexivity.
Qed.
Lemma status_stream e t r : handle_error no_plugins e (StreamOnly t) = Some r -> r_status r = 200%N.
Proof. cbn. intros H. injection H as <-. reflexivity. Qed.
Lemma status_graphql e m r : single_type m = Some GraphQLResponseJSON -> sane e -> handle_error no_plugins e m = Some r -> (400 <= r_status r)%N.
Proof. intros S Q H. destruct m as [[]|t|[] t|]; try discriminate; cbn in H; injection H as <-; apply hard_status, Q. Qed.
Lemma status_json e m r : single_type m = Some JSON -> sane e -> handle_error no_plugins e m = Some r ->
  (r_status r = 200%N <-> soft e) /\ (r_status r = 200 \/ 400 <= r_status r)%N.
Proof.
  intros S Q H. assert (E : r_status r = status_of e true) by (destruct m as [[]|t|[] t|]; try discriminate; cbn in H; injection H as <-; reflexivity).
  rewrite E. split; [apply soft_status, Q|]. destruct (soft_or_hard e Q) as [F|F]; [left; now apply soft_status|right; exact F].
Qed.
Lemma dispatch_none plugins x rest cop : dispatch plugins x rest cop = None <->
  exists t f e, x = Negotiated (inl Laboratory) t /\ cop = Some f /\ f (mkresponse 200 [] [] Page) = inr e.
Proof.
  unfold dispatch. split.
  - destruct (handler x rest) as [m r] eqn:H. intros D. assert (L : m = Laboratory).
    { destruct r as [r|e].
      - destruct cop as [f|]; [|discriminate]. destruct (f r); [discriminate|]. now apply panics in D.
      - destruct (handle_error plugins e m) as [r|] eqn:P; [|now apply panics in P]. destruct cop as [f|]; [|discriminate]. destruct (f r); [discriminate|]. now apply panics in D. }
    subst m. destruct x as [r0|[m|k] t]; cbn in H; try discriminate. destruct m; try discriminate. injection H as <-.
    destruct cop as [f|]; [|discriminate]. destruct (f _) as [r'|e] eqn:F; [discriminate|]. exists t, f, e. now repeat split.
  - intros (t & f & e & -> & -> & F). cbn. rewrite F. now apply panics.
Qed.
Lemma run_spec subs m sub : m <> Laboratory ->
  run subs m sub =
  (if sub then match subs, snd (mode_media m), stream_type m with true, Some _, Some t => inl (Streamed t) | _, _, _ => inr SubscriptionsNotSupported end
   else match m with SingleOnly s | Dual s _ => inl (Whole s) | _ => inr UnsupportedContentType end).
Proof. intros N. destruct sub, subs, m; try reflexivity; congruence. Qed.
