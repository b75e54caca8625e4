(* The client with its map refines the machines of its subscriptions. *)
From Coq Require Import String List Bool Arith NArith Lia.
From Verif Require Import StrUtil WcModel WcSpec WcBase.
Import ListNotations.
Open Scope string_scope.
Open Scope list_scope.

Section Proofs.
  Variable parse : string -> string -> option string.

  (* What a call of [subscribe] would name its subscription *)
  Definition taken (c : client) (a : action) : option string :=
    match a with Begin _ _ => if N.eqb (next c) u64_max then None else Some (N_to_dec (next c)) | _ => None end.

  Lemma drain_view c id payload paths v e w : of_view c id payload paths v -> NoDup (map fst (subs c)) -> (forall x, In x w -> about id x = false) ->
    of_view (drain e c w) id payload paths (if v_live v then mkview (v_items v ++ [Failed e]) false false (v_owner v) (v_said v) else v).
  Proof.
    intros (C & L & W & O & S) D A.
    assert (F : filter (about id) (written c ++ w) = filter (about id) (written c)).
    { rewrite filter_app. replace (filter (about id) w) with (@nil wmsg); [apply app_nil_r|].
      clear - A. induction w as [|x w IH]; [reflexivity|]. cbn. rewrite (A x (or_introl eq_refl)). apply IH. intros y Hy. apply A. right. exact Hy. }
    unfold drain, of_view. cbn [channels subs starting held written]. rewrite (get_drained e id (subs c) D), L, C, F.
    destruct (v_live v) eqn:Lv; cbn; [|rewrite Lv]; auto 9.
  Qed.
  Lemma drain_unknown c id e w : unknown c id -> NoDup (map fst (subs c)) -> (forall x, In x w -> about id x = false) -> unknown (drain e c w) id.
  Proof.
    intros (C & L & W & O & S) D A.
    assert (F : filter (about id) (written c ++ w) = filter (about id) (written c)).
    { rewrite filter_app. replace (filter (about id) w) with (@nil wmsg); [apply app_nil_r|].
      clear - A. induction w as [|x w IH]; [reflexivity|]. cbn. rewrite (A x (or_introl eq_refl)). apply IH. intros y Hy. apply A. right. exact Hy. }
    unfold drain, unknown. cbn [channels subs starting held written]. rewrite (get_drained e id (subs c) D), L, C, F. auto 9.
  Qed.
  Lemma reply_view c id payload paths v w : of_view c id payload paths v -> NoDup (map fst (subs c)) -> about id w = false ->
    of_view (reply w c) id payload paths (if is_close w && v_live v then mkview (v_items v ++ [Failed ConnectionClosed]) false false (v_owner v) (v_said v) else v).
  Proof.
    intros H D A. unfold reply. destruct (is_close w).
    - cbn [andb]. apply drain_view; auto 9. intros x [<-|[]]. exact A.
    - destruct H as (C & L & W & O & S). unfold of_view. cbn. rewrite filter_app. cbn. rewrite A, app_nil_r. auto 9.
  Qed.
  Lemma reply_unknown c id w : unknown c id -> NoDup (map fst (subs c)) -> about id w = false -> unknown (reply w c) id.
  Proof.
    intros H D A. unfold reply. destruct (is_close w).
    - apply drain_unknown; auto 9. intros x [<-|[]]. exact A.
    - destruct H as (C & L & W & O & S). unfold unknown. cbn. rewrite filter_app. cbn. rewrite A, app_nil_r. auto 9.
  Qed.

  Lemma receive_view c id payload paths v r : of_view c id payload paths v -> NoDup (map fst (subs c)) ->
    of_view (receive parse r c) id payload paths (vstep parse id payload paths v (Receive r)).
  Proof.
    intros H D. destruct r as [f| |].
    2,3: cbn [receive vstep effect_of fatal]; apply drain_view; auto 9; easy.
    destruct f as [[m|]| | |d| | |]; cbn [receive parse_frame vstep effect_of fatal].
    - destruct m as [| | |i p|i es|i]; cbn [on_message].
      + destruct (v_live v); exact H.
      + apply (reply_view c id payload paths v WPong) in H; auto 9. cbn in H. destruct (v_live v); exact H.
      + destruct (v_live v); exact H.
      + destruct H as (C & L & W & O & S).
        destruct (String.eqb_spec i id) as [E|E].
        * subst i. rewrite L. destruct (v_live v) eqn:Lv.
          -- unfold of_view, with_subs. cbn [channels subs starting held written v_items v_open v_live v_owner v_said].
             rewrite get_into, String.eqb_refl, C, app_nil_r. cbn. rewrite andb_true_r. auto 9.
          -- unfold of_view. rewrite Lv. auto 9.
        * assert (X : of_view c id payload paths v) by (unfold of_view; auto 9).
          replace (if v_live v then v else v) with v by (destruct (v_live v); reflexivity).
          destruct (get i (subs c)); [|exact X].
          unfold of_view, with_subs. cbn [channels subs starting held written].
          rewrite get_into, app_nil_r. destruct (String.eqb_spec i id); [congruence|]. auto 9.
      + destruct H as (C & L & W & O & S).
        destruct (String.eqb_spec i id) as [E|E].
        * subst i. rewrite L. destruct (v_live v) eqn:Lv.
          -- unfold of_view, with_subs. cbn [channels subs starting held written v_items v_open v_live v_owner v_said].
             rewrite get_into, get_del, String.eqb_refl, C, app_nil_r. cbn. rewrite andb_false_r. auto 9.
          -- unfold of_view. rewrite Lv. auto 9.
        * assert (X : of_view c id payload paths v) by (unfold of_view; auto 9).
          replace (if v_live v then v else v) with v by (destruct (v_live v); reflexivity).
          destruct (get i (subs c)); [|exact X].
          unfold of_view, with_subs. cbn [channels subs starting held written].
          rewrite get_into, get_del, app_nil_r. destruct (String.eqb_spec i id); [congruence|]. auto 9.
      + destruct H as (C & L & W & O & S).
        destruct (String.eqb_spec i id) as [E|E].
        * subst i. rewrite L. destruct (v_live v) eqn:Lv.
          -- unfold of_view, with_subs. cbn [channels subs starting held written v_items v_open v_live v_owner v_said].
             rewrite get_into, get_del, String.eqb_refl, C, app_nil_r. cbn. rewrite andb_false_r, ?app_nil_r. auto 9.
          -- unfold of_view. rewrite Lv. auto 9.
        * assert (X : of_view c id payload paths v) by (unfold of_view; auto 9).
          replace (if v_live v then v else v) with v by (destruct (v_live v); reflexivity).
          destruct (get i (subs c)); [|exact X].
          unfold of_view, with_subs. cbn [channels subs starting held written].
          rewrite get_into, get_del, app_nil_r. destruct (String.eqb_spec i id); [congruence|]. auto 9.
    - apply (reply_view c id payload paths v bad_response) in H; auto 9.
    - apply (reply_view c id payload paths v (unsupported "Invalid UTF-8 in message")) in H; auto 9.
    - apply (reply_view c id payload paths v (unsupported "Unsupported message type")) in H; auto 9.
    - apply (reply_view c id payload paths v (WWsPong d)) in H; auto 9. cbn in H. destruct (v_live v); exact H.
    - destruct (v_live v); exact H.
    - apply drain_view; auto 9; easy.
    - destruct (v_live v); exact H.
  Qed.
  Lemma receive_unknown c id r : unknown c id -> NoDup (map fst (subs c)) -> unknown (receive parse r c) id.
  Proof.
    intros H D. destruct r as [f| |].
    2,3: cbn [receive]; apply drain_unknown; auto 9; easy.
    destruct f as [[m|]| | |d| | |]; cbn [receive parse_frame]; try exact H; try (apply reply_unknown; auto 9; fail); try (apply drain_unknown; auto 9; easy).
    destruct m as [| | |i p|i es|i]; cbn [on_message]; try exact H; try (apply reply_unknown; auto 9; fail).
    all: destruct (get i (subs c)) as [x|] eqn:G; [|exact H].
    all: destruct H as (C & L & W & O & S).
    all: unfold unknown, with_subs; cbn [channels subs starting held written]; rewrite get_into, ?get_del, app_nil_r, C, L.
    all: destruct (String.eqb i id); auto 9.
  Qed.

  Lemma guard_view c id payload paths v i b : of_view c id payload paths v ->
    of_view (drop_guard i b c) id payload paths
      (if String.eqb i id then mkview (v_items v) (v_open v) false (v_owner v) (v_said v ++ if v_live v && b then [WComplete id] else []) else v).
  Proof.
    intros (C & L & W & O & S). unfold drop_guard. destruct (String.eqb_spec i id) as [E|E].
    - subst i. rewrite L. destruct (v_live v) eqn:Lv; cbn [andb].
      + unfold of_view, with_subs. cbn [channels subs starting held written v_items v_open v_live v_owner v_said].
        rewrite get_del, String.eqb_refl, filter_app, S. repeat split; try apply W; try apply O; auto 9.
        destruct b; cbn; [rewrite String.eqb_refl|]; reflexivity.
      + unfold of_view. cbn. rewrite app_nil_r. auto 9.
    - assert (X : of_view c id payload paths v) by (unfold of_view; auto 9).
      destruct (get i (subs c)); [|exact X].
      unfold of_view, with_subs. cbn [channels subs starting held written].
      rewrite get_del, filter_app. destruct (String.eqb_spec i id); [congruence|].
      repeat split; try apply W; try apply O; auto 9.
      rewrite S. destruct b; cbn; [|rewrite app_nil_r; reflexivity]. destruct (String.eqb_spec i id); [congruence|apply app_nil_r].
  Qed.
  Lemma guard_unknown c id i b : unknown c id -> unknown (drop_guard i b c) id.
  Proof.
    intros (C & L & W & O & S). unfold drop_guard. destruct (get i (subs c)) as [x|] eqn:G; [|unfold unknown; auto].
    assert (E : String.eqb i id = false) by (apply String.eqb_neq; intros ->; congruence).
    unfold unknown, with_subs. cbn [channels subs starting held written]. rewrite get_del, E, filter_app, S.
    repeat split; auto 9. destruct b; cbn; [rewrite E|]; reflexivity.
  Qed.

  Lemma step_view c a c' id payload paths v : of_view c id payload paths v -> NoDup (map fst (subs c)) -> step parse c a = Some c' -> taken c a <> Some id ->
    of_view c' id payload paths (vstep parse id payload paths v a).
  Proof.
    intros H D E T. destruct a as [p q| |w|r|i| |]; cbn [step] in E.
    - destruct (starting c) eqn:St; [discriminate|]. destruct (alive c); [|discriminate]. injection E as <-.
      assert (X : vstep parse id payload paths v (Begin p q) = v) by (cbn; destruct (v_live v); reflexivity). rewrite X. clear X.
      unfold begin. cbn [taken] in T. destruct (N.eqb (next c) u64_max); [exact H|].
      assert (N : String.eqb (N_to_dec (next c)) id = false) by (apply String.eqb_neq; congruence).
      destruct H as (C & L & W & O & S). unfold of_view. cbn [channels subs starting held written get]. rewrite N, get_del, N.
      refine (conj C (conj L (conj _ (conj O S)))). rewrite St in W. apply String.eqb_neq in N. destruct (v_owner v); [discriminate W| |]; intros p0 [= K _]; congruence.
    - destruct (starting c) as [[i p]|] eqn:St; [|discriminate]. injection E as <-. destruct H as (C & L & W & O & S).
      cbn [vstep]. unfold write, unstart, with_subs, of_view. cbn [channels subs starting held written next alive running].
      rewrite filter_app. destruct (v_owner v) eqn:Ov.
      + rewrite St in W. injection W as -> ->. cbn [v_items v_open v_live v_owner v_said]. cbn [filter about]. rewrite String.eqb_refl, S.
        repeat split; auto 9; try discriminate. intros _. left. reflexivity.
      + assert (F : i <> id) by (intros ->; apply (W p), St). cbn [filter about]. apply String.eqb_neq in F. rewrite F, app_nil_r, Ov. apply String.eqb_neq in F.
        repeat split; auto 9; try discriminate. intros _. right. apply O. reflexivity.
      + assert (F : i <> id) by (intros ->; apply (W p), St). cbn [filter about]. apply String.eqb_neq in F. rewrite F, app_nil_r, Ov. apply String.eqb_neq in F.
        repeat split; auto 9; try discriminate. intros [K|K]; [congruence|]. apply O in K. exact K.
    - destruct (starting c) as [[i p]|] eqn:St; [|discriminate]. injection E as <-. cbn [vstep].
      assert (U : of_view (if w then write (WSubscribe i p) (unstart c) else unstart c) id payload paths
                  match v_owner v with
                  | Writing => mkview (v_items v) (v_open v) (v_live v) Gone (v_said v ++ if w then [WSubscribe id payload] else [])
                  | _ => v
                  end).
      { destruct H as (C & L & W & O & S). destruct (v_owner v) eqn:Ov.
        - rewrite St in W. injection W as -> ->.
          destruct w; unfold of_view; cbn; rewrite ?filter_app; cbn; rewrite ?String.eqb_refl, ?app_nil_r, S; repeat split; auto 9; try discriminate.
          all: intros K; apply O in K; discriminate.
        - assert (F : i <> id) by (intros ->; apply (W p), St). apply String.eqb_neq in F.
          destruct w; unfold of_view; cbn; rewrite ?filter_app; cbn; rewrite ?F, ?app_nil_r, Ov; repeat split; auto 9; try discriminate; apply O.
        - assert (F : i <> id) by (intros ->; apply (W p), St). apply String.eqb_neq in F.
          destruct w; unfold of_view; cbn; rewrite ?filter_app; cbn; rewrite ?F, ?app_nil_r, Ov; repeat split; auto 9; try discriminate; apply O. }
      apply (guard_view _ _ _ _ _ i false) in U. rewrite !andb_false_r, app_nil_r in U.
      destruct H as (C & L & W & O & S). destruct (v_owner v) eqn:Ov; cbn [v_items v_open v_live v_owner v_said] in U.
      + rewrite St in W. injection W as -> ->. rewrite String.eqb_refl in U. exact U.
      + assert (F : i <> id) by (intros ->; apply (W p), St). apply String.eqb_neq in F. rewrite F in U. exact U.
      + assert (F : i <> id) by (intros ->; apply (W p), St). apply String.eqb_neq in F. rewrite F in U. exact U.
    - destruct (running c); [|discriminate]. injection E as <-. apply receive_view; assumption.
    - destruct (existsb (String.eqb i) (held c)) eqn:He; [|discriminate]. injection E as <-. cbn [vstep].
      apply existsb_exists in He as [y [He Y]]. apply String.eqb_eq in Y. subst y.
      pose proof H as H0. destruct H as (C & L & W & O & S).
      destruct (String.eqb_spec i id) as [F|F].
      + subst i. apply O in He. rewrite He. rewrite He in W.
        assert (U : of_view (mkclient (subs c) (next c) (starting c) (filter (fun x => negb (String.eqb x id)) (held c)) (alive c) (running c) (channels c) (written c))
                      id payload paths (mkview (v_items v) (v_open v) (v_live v) Gone (v_said v))).
        { unfold of_view. cbn. repeat split; auto 9; try discriminate. intros K. apply filter_In in K as [_ K]. rewrite String.eqb_refl in K. discriminate. }
        apply (guard_view _ _ _ _ _ id true) in U. rewrite String.eqb_refl, andb_true_r in U. exact U.
      + assert (U : of_view (mkclient (subs c) (next c) (starting c) (filter (fun x => negb (String.eqb x i)) (held c)) (alive c) (running c) (channels c) (written c))
                      id payload paths v).
        { unfold of_view. cbn. repeat split; auto 9.
          - intros K. apply O in K. apply filter_In. split; [exact K|]. destruct (String.eqb_spec id i); [congruence|reflexivity].
          - intros K. apply filter_In in K as [K _]. apply O. exact K. }
        apply (guard_view _ _ _ _ _ i true) in U. apply String.eqb_neq in F. rewrite F in U. destruct (v_owner v); exact U.
    - destruct (starting c) eqn:St; [discriminate|]. destruct (alive c); [|discriminate]. injection E as <-.
      assert (X : vstep parse id payload paths v DropClient = v) by (cbn; destruct (v_live v); reflexivity). rewrite X. clear X.
      destruct H as (C & L & W & O & S). unfold of_view. cbn. rewrite filter_app. cbn. rewrite app_nil_r.
      rewrite St in W. auto 9.
    - destruct (running c); [|discriminate]. injection E as <-.
      cbn [vstep effect_of]. apply drain_view; auto 9; easy.
  Qed.
  Lemma step_unknown c a c' id : unknown c id -> NoDup (map fst (subs c)) -> step parse c a = Some c' -> taken c a <> Some id -> unknown c' id.
  Proof.
    intros H D E T. destruct a as [p q| |w|r|i| |]; cbn [step] in E.
    - destruct (starting c) eqn:St; [discriminate|]. destruct (alive c); [|discriminate]. injection E as <-.
      unfold begin. cbn [taken] in T. destruct (N.eqb (next c) u64_max); [exact H|].
      assert (N : String.eqb (N_to_dec (next c)) id = false) by (apply String.eqb_neq; congruence).
      destruct H as (C & L & W & O & S). unfold unknown. cbn [channels subs starting held written get]. rewrite N, get_del, N.
      repeat split; auto 9. intros p0 [= K _]. apply String.eqb_neq in N. congruence.
    - destruct (starting c) as [[i p]|] eqn:St; [|discriminate]. injection E as <-. destruct H as (C & L & W & O & S).
      assert (F : i <> id) by (intros ->; apply (W p), St).
      unfold write, unstart, with_subs, unknown. cbn [channels subs starting held written next alive running].
      rewrite filter_app. cbn. apply String.eqb_neq in F. rewrite F, S. apply String.eqb_neq in F. repeat split; auto 9; [discriminate|]. intros [K|K]; auto 9.
    - destruct (starting c) as [[i p]|] eqn:St; [|discriminate]. injection E as <-. apply guard_unknown.
      destruct H as (C & L & W & O & S). assert (F : i <> id) by (intros ->; apply (W p), St). apply String.eqb_neq in F.
      destruct w; unfold unknown; cbn; rewrite ?filter_app; cbn; rewrite ?F, S; repeat split; auto 9; discriminate.
    - destruct (running c); [|discriminate]. injection E as <-. apply receive_unknown; assumption.
    - destruct (existsb (String.eqb i) (held c)) eqn:He; [|discriminate]. injection E as <-. apply guard_unknown.
      destruct H as (C & L & W & O & S). unfold unknown. cbn. repeat split; auto 9. intros K. apply filter_In in K as [K _]. auto 9.
    - destruct (starting c) eqn:St; [discriminate|]. destruct (alive c); [|discriminate]. injection E as <-.
      destruct H as (C & L & W & O & S). unfold unknown. cbn. rewrite filter_app. cbn. rewrite S. repeat split; auto 9. discriminate.
    - destruct (running c); [|discriminate]. injection E as <-. apply drain_unknown; auto 9; easy.
  Qed.
  Lemma step_taken c a c' id : unknown c id -> step parse c a = Some c' -> taken c a = Some id ->
    exists p q, a = Begin p q /\ of_view c' id p q fresh.
  Proof.
    intros (C & L & W & O & S) E T. destruct a as [p q| |w|r|i| |]; try discriminate T. exists p, q. split; [reflexivity|].
    cbn in E, T. destruct (starting c); [discriminate|]. destruct (alive c); [|discriminate]. injection E as <-.
    unfold begin. destruct (N.eqb (next c) u64_max); [discriminate|]. injection T as T.
    unfold of_view. cbn [channels subs starting held written get fresh v_items v_open v_live v_owner v_said]. rewrite T, String.eqb_refl.
    repeat split; auto 9; try discriminate. intros K. destruct (O K).
  Qed.

  (* ** The map *)
  Lemma drain_subs e c w : subs (drain e c w) = [] /\ next (drain e c w) = next c.
  Proof. split; reflexivity. Qed.
  Definition within (c c' : client) : Prop :=
    next c' = next c /\ (NoDup (map fst (subs c)) -> NoDup (map fst (subs c'))) /\ forall i, get i (subs c') <> None -> get i (subs c) <> None.
  Lemma within_refl c : within c c.
  Proof. repeat split; auto 9. Qed.
  Lemma within_drain e c w : within c (drain e c w).
  Proof. repeat split; cbn; [constructor|]. intros i H. destruct (H eq_refl). Qed.
  Lemma within_del c i w ch : within c (with_subs c (del i (subs c)) ch w).
  Proof.
    repeat split; cbn; [apply del_nodup|]. intros j. rewrite get_del. destruct (String.eqb i j); [easy|auto].
  Qed.
  Lemma within_reply w c : within c (reply w c).
  Proof. unfold reply. destruct (is_close w); [apply within_drain|]. repeat split; auto 9. Qed.
  Lemma within_guard i b c : within c (drop_guard i b c).
  Proof. unfold drop_guard. destruct (get i (subs c)); [apply within_del|apply within_refl]. Qed.
  Lemma within_receive r c : within c (receive parse r c).
  Proof.
    destruct r as [f| |]; [|apply within_drain|apply within_drain].
    destruct f as [[m|]| | |d| | |]; cbn [receive parse_frame]; try apply within_reply; try apply within_refl; try apply within_drain.
    destruct m as [| | |i p|i es|i]; cbn [on_message]; try apply within_reply; try apply within_refl.
    all: destruct (get i (subs c)); [|apply within_refl]; try apply within_del. repeat split; auto 9.
  Qed.
  Lemma step_map c a c' : step parse c a = Some c' -> NoDup (map fst (subs c)) ->
    NoDup (map fst (subs c')) /\
    next c' = match taken c a with Some _ => (next c + 1)%N | None => next c end /\
    forall i, get i (subs c') <> None -> get i (subs c) <> None \/ taken c a = Some i.
  Proof.
    intros E D.
    assert (X : forall d, within c d -> taken c a = None -> NoDup (map fst (subs d)) /\ next d = match taken c a with Some _ => (next c + 1)%N | None => next c end /\
                forall i, get i (subs d) <> None -> get i (subs c) <> None \/ taken c a = Some i).
    { intros d (A & B & G) T. rewrite T. split; [auto|]. split; [exact A|]. intros i K. left. auto 9. }
    destruct a as [p q| |w|r|i| |]; cbn [step] in E.
    - destruct (starting c) eqn:St; [discriminate|]. destruct (alive c); [|discriminate]. injection E as <-. clear X.
      unfold begin. cbn [taken]. destruct (N.eqb (next c) u64_max); [auto|]. cbn [subs next map fst get].
      split; [|split; [reflexivity|]].
      + constructor; [apply del_fresh|apply del_nodup; exact D].
      + intros i. destruct (String.eqb_spec (N_to_dec (next c)) i) as [F|F]; [subst i; auto|].
        rewrite get_del. destruct (String.eqb_spec (N_to_dec (next c)) i); [congruence|auto].
    - destruct (starting c) as [[i p]|] eqn:St; [|discriminate]. injection E as <-. apply X; [|reflexivity]. repeat split; auto 9.
    - destruct (starting c) as [[i p]|] eqn:St; [|discriminate]. injection E as <-. apply X; [|reflexivity].
      pose proof (within_guard i false (if w then write (WSubscribe i p) (unstart c) else unstart c)) as G.
      destruct w; exact G.
    - destruct (running c); [|discriminate]. injection E as <-. apply X; [apply within_receive|reflexivity].
    - destruct (existsb (String.eqb i) (held c)); [|discriminate]. injection E as <-. apply X; [|reflexivity].
      exact (within_guard i true (mkclient (subs c) (next c) (starting c) (filter (fun x => negb (String.eqb x i)) (held c)) (alive c) (running c) (channels c) (written c))).
    - destruct (starting c) eqn:St; [discriminate|]. destruct (alive c); [|discriminate]. injection E as <-. apply X; [|reflexivity]. repeat split; auto 9.
    - destruct (running c); [|discriminate]. injection E as <-. apply X; [apply within_drain|reflexivity].
  Qed.

  (* ** All of a connection *)
  Record inv (tr : list action) (c : client) : Prop := mkinv {
    i_next : next c = N.min (N.of_nat (calls tr) + 1) u64_max;
    i_nodup : NoDup (map fst (subs c));
    i_known : forall i, get i (subs c) <> None -> exists k, k < calls tr /\ numbered k /\ i = name k;
    i_other : forall i, (forall k, k < calls tr -> numbered k -> i <> name k) -> unknown c i;
    i_view : forall k, numbered k ->
      match since k tr with
      | Some (payload, paths, tail) => of_view c (name k) payload paths (sees parse (name k) payload paths tail)
      | None => unknown c (name k)
      end }.
  Lemma inv_steps tr c : steps parse start tr = Some c -> inv tr c.
  Proof.
    revert c. induction tr as [|a tr IH] using rev_ind; intros c H.
    - injection H as <-. apply mkinv; cbn.
      + reflexivity.
      + constructor.
      + intros i K. destruct (K eq_refl).
      + intros i _. repeat split; auto 9; discriminate.
      + intros k _. repeat split; auto 9; discriminate.
    - rewrite steps_snoc in H. destruct (steps parse start tr) as [c0|] eqn:E; [|discriminate].
      destruct (IH c0 eq_refl) as [N D K M V]. destruct (step_map c0 a c H D) as (D' & N' & K').
      assert (T : forall id, taken c0 a = Some id -> numbered (calls tr) /\ id = name (calls tr) /\ exists p q, a = Begin p q).
      { intros id T. destruct a; try discriminate. cbn in T. destruct (N.eqb_spec (next c0) u64_max) as [F|F]; [discriminate|]. injection T as <-.
        rewrite N in *. unfold numbered, name, u64_max in *. split; [lia|]. split; [|eauto]. f_equal. lia. }
      assert (T' : forall p q, a = Begin p q -> numbered (calls tr) -> taken c0 a = Some (name (calls tr))).
      { intros p q -> U. cbn. unfold numbered, name, u64_max in *. destruct (N.eqb_spec (next c0) 18446744073709551615) as [F|F]; [lia|]. do 2 f_equal. lia. }
      apply mkinv.
      + rewrite N', calls_snoc. destruct (taken c0 a) as [id|] eqn:Ta.
        * destruct (T id eq_refl) as (U & _ & p & q & ->). rewrite N. unfold numbered, u64_max in *. lia.
        * rewrite N. destruct a; rewrite ?Nat.add_0_r; try reflexivity.
          cbn in Ta. destruct (N.eqb_spec (next c0) u64_max) as [F|F]; [|discriminate]. unfold u64_max in *. lia.
      + exact D'.
      + intros i G. rewrite calls_snoc. destruct (K' i G) as [O|O].
        * destruct (K i O) as (k & L & U & ->). exists k. split; [lia|auto].
        * destruct (T i O) as (U & -> & p & q & ->). exists (calls tr). split; [lia|auto].
      + intros i B. rewrite calls_snoc in B. apply (step_unknown c0 a c); auto.
        * apply M. intros k L. apply B. lia.
        * intros Ta. destruct (T _ Ta) as (U & -> & p & q & ->). refine (B (calls tr) _ U eq_refl). lia.
      + intros k U. rewrite since_snoc. specialize (V k U). destruct (since k tr) as [[[p q] t]|] eqn:Si.
        * unfold sees. rewrite fold_left_app. cbn [fold_left]. apply (step_view c0 a c); auto 9.
          intros Ta. destruct (T _ Ta) as (_ & B & _). apply name_inj in B.
          assert (X : since k tr <> None) by congruence. destruct X. apply since_none. lia.
        * assert (O : match a with Begin p q => taken c0 a = Some (name k) -> of_view c (name k) p q fresh | _ => True end).
          { destruct a; auto 9. intros Ta. destruct (step_taken c0 _ c _ V H Ta) as (p & q & [= <- <-] & O). exact O. }
          destruct a as [p q| |w|r|i| |].
          2-7: apply (step_unknown c0 _ c _ V D H); discriminate.
          destruct (Nat.eqb_spec k (calls tr)) as [F|F].
          -- apply O. rewrite (T' p q eq_refl); [congruence|]. rewrite <- F. exact U.
          -- apply (step_unknown c0 _ c _ V D H). intros Ta. destruct (T _ Ta) as (_ & B & _). apply name_inj in B. auto 9.
  Qed.
End Proofs.
