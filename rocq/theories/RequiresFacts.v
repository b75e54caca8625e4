(** C39: what representations contain, and that they are well-formed. *)
From Coq Require Import String Ascii List NArith ZArith Bool Lia.
From Verif Require Import StrOrd StrUtil JsonModel JsonWriterModel JsonText JsonWriterProofs Ast TraverseModel
  ProjModel ProjSpec ProjProofs ProjTextProofs RequiresModel RequiresSpec RequiresProofs.
Import ListNotations.
Local Open Scope string_scope.

Section C.
  Variable pt : ptypes.
  Notation parts := (parts pt).

  Lemma only_typename_required o sels n k sub : only_typename sels = true -> ~ required pt o sels n k sub.
  Proof.
    intros H R. destruct sels as [|[n0 a0 ar0 i0 s0 om0 sub0| |] [|? ?]]; try discriminate H.
    cbn in H. apply String.eqb_eq in H.
    inversion R as [sels' n' a' ar' i' s' om' sub' Hin Hne|sels' c i' s' fs n' k' sub' Hin]; subst.
    - destruct Hin as [Hin|[]]. injection Hin as -> -> -> -> -> -> ->. contradiction.
    - destruct Hin as [Hin|[]]. discriminate Hin.
  Qed.

  Definition field_part (o : list (string * value)) (sels : list sel) (k : string) (w : option value) : Prop :=
    exists n sub v, required pt o sels n k sub /\ stored o n k = Some v /\ w = field_value pt sub v.

  Lemma required_mono o x sels n k sub : required pt o [x] n k sub -> In x sels -> required pt o sels n k sub.
  Proof.
    intros R Hx. inversion R as [sels' n' a' ar' i' s' om' sub' Hin Hne|sels' c i' s' fs n' k' sub' Hin Hr Hf]; subst;
      destruct Hin as [->|[]].
    - eapply Req_field; [exact Hx|exact Hne].
    - eapply Req_frag; [exact Hx|exact Hr|exact Hf].
  Qed.
  Lemma required_one o sels n k sub : required pt o sels n k sub -> exists x, In x sels /\ required pt o [x] n k sub.
  Proof.
    intros R. inversion R as [sels' n' a' ar' i' s' om' sub' Hin Hne|sels' c i' s' fs n' k' sub' Hin Hr Hf]; subst.
    - eexists. split; [exact Hin|]. eapply Req_field; [left; reflexivity|exact Hne].
    - eexists. split; [exact Hin|]. eapply Req_frag; [left; reflexivity|exact Hr|exact Hf].
  Qed.

  Lemma parts_of_spec sels o k w :
    Forall (fun x => In (PField k w) (parts x o) <-> field_part o [x] k w) sels ->
    (In (PField k w) (obj_parts pt sels o) <-> field_part o sels k w).
  Proof.
    intros F.
    assert (G : In (PField k w) (flat_map (fun y => parts y o) sels) <-> field_part o sels k w).
    { rewrite in_flat_map. rewrite Forall_forall in F. split.
      - intros (x & Hx & Hp). apply F in Hp; [|exact Hx]. destruct Hp as (n & sub & v & R & E).
        exists n, sub, v. split; [|exact E]. eapply required_mono; [exact R|exact Hx].
      - intros (n & sub & v & R & E). destruct (required_one _ _ _ _ _ R) as (x & Hx & R').
        exists x. split; [exact Hx|]. apply F; [exact Hx|]. exists n, sub, v. auto. }
    unfold obj_parts, parts_of. destruct (only_typename sels) eqn:Eo; [|exact G].
    destruct (typename_of o); [|exact G]. split.
    - intros [H|[]]. discriminate H.
    - intros (n & sub & v & R & _). exfalso. eapply only_typename_required; [exact Eo|exact R].
  Qed.

  Lemma parts_spec x : forall o k w, In (PField k w) (parts x o) <-> field_part o [x] k w.
  Proof.
    induction x as [n a args inc skip om sub IH|c inc skip sub IH|n] using sel_ind'; intros o k w.
    - assert (R : forall n' k' sub', required pt o [SField n a args inc skip om sub] n' k' sub' <->
                n' = n /\ k' = ident n a /\ sub' = sub /\ ident n a <> "__typename").
      { intros n' k' sub'. split.
        - intros R. inversion R as [sels' n2 a' ar' i' s' om' sub2 Hin Hne|sels' c i' s' fs n2 k2 sub2 Hin Hr Hf]; subst;
            destruct Hin as [Hin|[]]; [|discriminate Hin].
          injection Hin as -> -> -> -> -> -> ->. auto.
        - intros (-> & -> & -> & Hne). eapply Req_field; [left; reflexivity|exact Hne]. }
      cbn [RequiresSpec.parts].
      destruct (String.eqb (ident n a) "__typename") eqn:Ek.
      { apply String.eqb_eq in Ek. split; [intros []|]. intros (n' & sub' & v & H & _). apply R in H.
        destruct H as (_ & _ & _ & H). contradiction. }
      apply String.eqb_neq in Ek. unfold field_part.
      change (match get n o with Some v => Some v | None => get (ident n a) o end) with (stored o n (ident n a)).
      change (rep_with (is_nil sub) (fun o' => parts_of (fun y => parts y o') sub o')) with (rep pt sub).
      destruct (stored o n (ident n a)) as [v|] eqn:Es.
      + assert (Ep : (match v with VNull => [PField (ident n a) (Some VNull)] | _ => [PField (ident n a) (rep pt sub v)] end)
                  = [PField (ident n a) (field_value pt sub v)]) by (destruct v; reflexivity).
        rewrite Ep. split.
        * intros [H|[]]. injection H as <- <-. exists n, sub, v. split; [apply R; auto|auto].
        * intros (n' & sub' & v' & H & E1 & E2). apply R in H. destruct H as (-> & -> & -> & _).
          rewrite Es in E1. injection E1 as <-. left. rewrite E2. reflexivity.
      + split; [intros []|]. intros (n' & sub' & v' & H & E1 & E2). apply R in H. destruct H as (-> & -> & -> & _).
        rewrite Es in E1. discriminate E1.
    - cbn [RequiresSpec.parts].
      assert (R : forall n' k' sub', required pt o [SFrag c inc skip sub] n' k' sub' <->
                related pt o c = true /\ required pt o sub n' k' sub').
      { intros n' k' sub'. split.
        - intros R. inversion R as [sels' n2 a' ar' i' s' om' sub2 Hin Hne|sels' c2 i' s' fs n2 k2 sub2 Hin Hr Hf]; subst;
            destruct Hin as [Hin|[]]; [discriminate Hin|].
          injection Hin as -> -> -> ->. auto.
        - intros (H1 & H2). eapply Req_frag; [left; reflexivity|exact H1|exact H2]. }
      destruct (related pt o c) eqn:Er.
      + change (parts_of (fun y => parts y o) sub o) with (obj_parts pt sub o).
        rewrite parts_of_spec; [|eapply Forall_impl; [|exact IH]; intros y Hy; apply Hy].
        unfold field_part. split; intros (n' & sub' & v & H & E); exists n', sub', v; (split; [|exact E]).
        * apply R. auto.
        * apply R in H. apply H.
      + split; [intros []|]. intros (n' & sub' & v & H & _). apply R in H. destruct H as [H _]. discriminate H.
    - split; [intros []|]. intros (n' & sub' & v & H & _).
      inversion H as [sels' n2 a' ar' i' s' om' sub2 Hin Hne|sels' c2 i' s' fs n2 k2 sub2 Hin Hr Hf]; subst;
        destruct Hin as [Hin|[]]; discriminate Hin.
  Qed.
  Lemma obj_parts_spec sels o k w : In (PField k w) (obj_parts pt sels o) <-> field_part o sels k w.
  Proof. apply parts_of_spec. apply Forall_forall. intros x _. apply parts_spec. Qed.

  (** bare type names *)
  Definition bare_item (o : list (string * value)) (x : sel) : Prop :=
    match x with SFrag c _ _ fs => related pt o c = true /\ bare pt o fs | _ => False end.
  Lemma bare_parts_of sels o : (Forall (fun x => In PBare (parts x o) <-> bare_item o x) sels) ->
    (In PBare (obj_parts pt sels o) <-> bare pt o sels).
  Proof.
    intros F. rewrite Forall_forall in F. unfold obj_parts, parts_of.
    assert (G : only_typename sels = false \/ typename_of o = None ->
              (In PBare (flat_map (fun y => parts y o) sels) <-> bare pt o sels)).
    { intros Hn. rewrite in_flat_map. split.
      - intros (x & Hx & Hp). apply F in Hp; [|exact Hx]. destruct x; try contradiction. destruct Hp as [Hr Hb].
        eapply Bare_frag; [exact Hx|exact Hr|exact Hb].
      - intros B. inversion B as [s t H1 H2|s c i s' fs Hin Hr Hb]; subst.
        + destruct Hn as [Hn|Hn]; congruence.
        + eexists. split; [exact Hin|]. apply F; [exact Hin|]. split; assumption. }
    destruct (only_typename sels) eqn:Eo; [|apply G; auto].
    destruct (typename_of o) as [t|] eqn:Et; [|apply G; auto].
    split; [intros _; eapply Bare_here; eassumption|intros _; left; reflexivity].
  Qed.
  Lemma bare_parts x : forall o, In PBare (parts x o) <-> bare_item o x.
  Proof.
    induction x as [n a args inc skip om sub IH|c inc skip sub IH|n] using sel_ind'; intros o; cbn [RequiresSpec.parts bare_item].
    - destruct (String.eqb (ident n a) "__typename"); [reflexivity|].
      destruct (match get n o with Some v => Some v | None => get (ident n a) o end) as [v|]; [|reflexivity].
      destruct v; (split; [intros [H|[]]; discriminate H|intros []]).
    - destruct (related pt o c).
      + change (parts_of (fun y => parts y o) sub o) with (obj_parts pt sub o).
        rewrite bare_parts_of by (eapply Forall_impl; [|exact IH]; intros y Hy; apply Hy). split; [auto|intros [_ H]; exact H].
      + split; [intros []|intros [H _]; discriminate H].
    - reflexivity.
  Qed.
  Lemma obj_bare sels o : In PBare (obj_parts pt sels o) <-> bare pt o sels.
  Proof. apply bare_parts_of. apply Forall_forall. intros x _. apply bare_parts. Qed.

  (** ** The members of a representation *)
  Lemma rep_obj sels o : sels <> [] -> rep pt sels (VObj o) = assemble (typename_of o) (obj_parts pt sels o).
  Proof. intros H. unfold rep. destruct sels; [contradiction|reflexivity]. Qed.

  Lemma rep_members sels o ms : sels <> [] -> rep pt sels (VObj o) = Some (VObj ms) ->
    forall k w, In (k, w) ms <->
      (k = "__typename" /\ exists t, typename_of o = Some t /\ w = VStr t) \/
      (exists n sub v, required pt o sels n k sub /\ stored o n k = Some v /\ field_value pt sub v = Some w).
  Proof.
    intros Ne E k w. rewrite rep_obj in E by exact Ne. unfold assemble, members in E.
    assert (Fl : In (k, w) (flat_map (fun p => match p with PField k (Some v) => [(k, v)] | _ => [] end) (obj_parts pt sels o))
             <-> In (PField k (Some w)) (obj_parts pt sels o)).
    { rewrite in_flat_map. split.
      - intros (p & Hp & H). destruct p as [k' [v|]|]; try contradiction. destruct H as [H|[]]. injection H as -> ->. exact Hp.
      - intros H. exists (PField k (Some w)). split; [exact H|left; reflexivity]. }
    rewrite obj_parts_spec in Fl. unfold field_part in Fl.
    destruct (obj_parts pt sels o) as [|p ps] eqn:Eo; [discriminate E|].
    match type of E with match ?m with _ => _ end = _ => assert (Em : m = ms) by (destruct m; [discriminate E|injection E as <-; reflexivity]) end.
    rewrite <- Em. rewrite in_app_iff.
    split.
    - intros [H|H].
      + destruct (typename_of o) as [t|]; [|destruct H]. destruct H as [H|[]]. injection H as <- <-. left. split; [reflexivity|]. exists t. auto.
      + right. apply Fl in H. destruct H as (n & sub & v & H1 & H2 & H3). exists n, sub, v. auto.
    - intros [[-> (t & -> & ->)]|(n & sub & v & H1 & H2 & H3)].
      + left. left. reflexivity.
      + right. apply Fl. exists n, sub, v. auto.
  Qed.

  (** ** When nothing is sent *)
  Lemma rep_none sels o t : sels <> [] -> typename_of o = Some t ->
    (rep pt sels (VObj o) = None <->
     ~ bare pt o sels /\ forall n k sub, required pt o sels n k sub -> stored o n k = None).
  Proof.
    intros Ne T. rewrite rep_obj by exact Ne. rewrite T. unfold assemble, members.
    split.
    - intros E. destruct (obj_parts pt sels o) as [|p ps] eqn:Eo; [|discriminate E].
      split; [intros B; apply obj_bare in B; rewrite Eo in B; exact B|].
      intros n k sub R. destruct (stored o n k) as [v|] eqn:Es; [|reflexivity]. exfalso.
      assert (H : In (PField k (field_value pt sub v)) (obj_parts pt sels o)) by (apply obj_parts_spec; exists n, sub, v; auto).
      rewrite Eo in H. exact H.
    - intros [B R]. destruct (obj_parts pt sels o) as [|p ps] eqn:Eo; [reflexivity|]. exfalso.
      assert (Hp : In p (obj_parts pt sels o)) by (rewrite Eo; left; reflexivity).
      destruct p as [k w|]; [|apply obj_bare in Hp; contradiction].
      apply obj_parts_spec in Hp. destruct Hp as (n & sub & v & R' & Es & _). rewrite (R n k sub R') in Es. discriminate Es.
  Qed.
  (** without a type name, fields with a value are needed *)
  Lemma rep_none_untyped sels o : sels <> [] -> typename_of o = None ->
    (rep pt sels (VObj o) = None <->
     forall n k sub v, required pt o sels n k sub -> stored o n k = Some v -> field_value pt sub v = None).
  Proof.
    intros Ne T. split.
    - intros E n k sub v R Es. destruct (field_value pt sub v) as [w|] eqn:Ef; [|reflexivity]. exfalso.
      rewrite rep_obj, T in E by exact Ne. unfold assemble, members in E.
      assert (H : In (PField k (Some w)) (obj_parts pt sels o)) by (apply obj_parts_spec; exists n, sub, v; auto).
      destruct (obj_parts pt sels o) as [|p ps]; [exact H|].
      destruct (flat_map (fun p => match p with PField k (Some v) => [(k, v)] | _ => [] end) (p :: ps)) eqn:Ef'; [|discriminate E].
      assert (In (k, w) (flat_map (fun p => match p with PField k (Some v) => [(k, v)] | _ => [] end) (p :: ps))).
      { apply in_flat_map. exists (PField k (Some w)). split; [exact H|left; reflexivity]. }
      rewrite Ef' in H0. exact H0.
    - intros H. destruct (rep pt sels (VObj o)) as [w|] eqn:E; [|reflexivity]. exfalso.
      rewrite rep_obj, T in E by exact Ne. unfold assemble, members in E.
      destruct (obj_parts pt sels o) as [|p ps] eqn:Eo; [discriminate E|]. cbn [List.app] in E.
      destruct (flat_map (fun p => match p with PField k (Some v) => [(k, v)] | _ => [] end) (p :: ps)) as [|[k x] ms] eqn:Ef; [discriminate E|].
      assert (Hin : In (k, x) (flat_map (fun p => match p with PField k (Some v) => [(k, v)] | _ => [] end) (p :: ps))) by (rewrite Ef; left; reflexivity).
      rewrite <- Eo in Hin. apply in_flat_map in Hin. destruct Hin as (q & Hq & Hx).
      destruct q as [k' [v'|]|]; try contradiction. destruct Hx as [Hx|[]]. injection Hx as -> ->.
      apply obj_parts_spec in Hq. destruct Hq as (n & sub & v & R & Es & Ev). rewrite (H n k sub v R Es) in Ev. discriminate Ev.
  Qed.

  (** ** Selections without bare type names are tidy *)
  Lemma no_bare_parts x : no_bare x = true -> forall o, ~ In PBare (parts x o).
  Proof.
    intros H o B. apply bare_parts in B. revert o H B.
    induction x as [n a args inc skip om sub IH|c inc skip sub IH|n] using sel_ind'; intros o H B; try contradiction.
    destruct B as [_ B]. cbn [no_bare] in H. apply andb_prop in H. destruct H as [H1 H2].
    apply negb_true_iff in H1. inversion B as [s t E1 E2|s c' i s' fs Hin Hr Hb]; subst; [congruence|].
    rewrite Forall_forall in IH. rewrite forallb_forall in H2. apply (IH _ Hin o (H2 _ Hin)). split; assumption.
  Qed.
  Lemma no_bare_first sels o : forallb no_bare sels = true -> bare_first (obj_parts pt sels o) = true.
  Proof.
    intros H. unfold obj_parts, parts_of, bare_first.
    assert (G : forallb (fun p => match p with PBare => false | _ => true end) (tl (flat_map (fun y => parts y o) sels)) = true).
    { apply forallb_forall. intros p Hp. destruct p; [reflexivity|]. exfalso.
      assert (Hp' : In PBare (flat_map (fun y => parts y o) sels)) by (destruct (flat_map (fun y => parts y o) sels); [destruct Hp|right; exact Hp]).
      apply in_flat_map in Hp'. destruct Hp' as (x & Hx & B). rewrite forallb_forall in H. exact (no_bare_parts x (H _ Hx) o B). }
    destruct (only_typename sels); [|exact G]. destruct (typename_of o); [reflexivity|exact G].
  Qed.
  Lemma tidy_with_all whole obj : (forall o, obj o = true) -> forall v, tidy_with whole obj v = true.
  Proof.
    intros H. induction v as [|fbits|iz|un|bb|str|raw|l IH|o IH] using value_ind'; try reflexivity; cbn [tidy_with].
    - apply forallb_forall. rewrite Forall_forall in IH. exact IH.
    - rewrite H, orb_true_r. reflexivity.
  Qed.
  Lemma no_bare_tidy_item x : no_bare x = true -> forall o, tidy_item pt x o = true.
  Proof.
    induction x as [n a args inc skip om sub IH|c inc skip sub IH|n] using sel_ind'; intros H o; [| |reflexivity].
    - cbn [tidy_item]. cbn [no_bare] in H.
      destruct (match get n o with Some v => Some v | None => get (ident n a) o end) as [v|]; [|reflexivity].
      apply tidy_with_all. intros o'. apply andb_true_intro. split; [apply (no_bare_first sub o' H)|].
      apply forallb_forall. intros y Hy. rewrite Forall_forall in IH. rewrite forallb_forall in H. apply IH; [exact Hy|apply H, Hy].
    - cbn [tidy_item no_bare] in *. apply andb_prop in H. destruct H as [_ H].
      apply forallb_forall. intros y Hy. rewrite Forall_forall in IH. rewrite forallb_forall in H. apply IH; [exact Hy|apply H, Hy].
  Qed.
  Lemma no_bare_tidy sels : forallb no_bare sels = true -> forall v, tidy pt sels v = true.
  Proof.
    intros H v. apply tidy_with_all. intros o. apply andb_true_intro. split; [apply no_bare_first, H|].
    apply forallb_forall. intros y Hy. rewrite forallb_forall in H. apply no_bare_tidy_item, H, Hy.
  Qed.

  (** ** The representation only contains parts of the data *)
  Section Ok.
    Variable raw : string -> jval.
    Notation ok := (data_ok raw).
    Definition part_ok (p : part) : Prop := match p with PField _ (Some v) => ok v | _ => True end.

    Lemma ok_list l : ok (VArr l) <-> Forall ok l.
    Proof. cbn [data_ok]. induction l as [|x l IH]; cbn [fold_right]; [split; [constructor|trivial]|].
      rewrite IH. split; [intros [H1 H2]; constructor; assumption|intros H; inversion H; auto]. Qed.
    Lemma ok_obj o : ok (VObj o) <-> Forall (fun kv => ok (snd kv)) o.
    Proof. cbn [data_ok]. induction o as [|x l IH]; cbn [fold_right]; [split; [constructor|trivial]|].
      rewrite IH. split; [intros [H1 H2]; constructor; assumption|intros H; inversion H; auto]. Qed.
    Lemma ok_get o k v : ok (VObj o) -> get k o = Some v -> ok v.
    Proof. intros H G. rewrite ok_obj, Forall_forall in H. apply get_in in G. exact (H _ G). Qed.

    Lemma rep_with_ok whole obj : (forall o, ok (VObj o) -> Forall part_ok (obj o)) ->
      forall v, ok v -> forall w, rep_with whole obj v = Some w -> ok w.
    Proof.
      intros Ho. induction v as [|fbits|iz|un|bb|str|rw|l IH|o IH] using value_ind'; intros K w E; cbn [rep_with] in E;
        try (injection E as <-; exact K); try discriminate E.
      - injection E as <-. apply ok_list. apply ok_list in K.
        induction IH as [|x l Hx Hl IHl]; [constructor|]. inversion K as [|? ? K1 K2]; subst. cbn [map somes].
        destruct (rep_with whole obj x) as [y|] eqn:Ex; [constructor; [eapply Hx; [exact K1|reflexivity]|]|]; apply IHl; exact K2.
      - destruct whole; [injection E as <-; exact K|]. unfold assemble in E.
        destruct (members (typename_of o) (obj o)) as [|m ms] eqn:Em; [discriminate E|]. injection E as <-. rewrite <- Em.
        apply ok_obj. unfold members. destruct (obj o) as [|p ps] eqn:Eo; [constructor|]. apply Forall_app. split.
        + destruct (typename_of o); repeat constructor.
        + specialize (Ho o K). rewrite Eo in Ho. clear Em Eo. induction Ho as [|q qs Hq _ IHq]; [constructor|].
          cbn [flat_map]. apply Forall_app. split; [|exact IHq]. destruct q as [k [v|]|]; repeat constructor. exact Hq.
    Qed.
    Lemma parts_ok x : forall o, ok (VObj o) -> Forall part_ok (parts x o).
    Proof.
      induction x as [n a args inc skip om sub IH|c inc skip sub IH|n] using sel_ind'; intros o K; cbn [RequiresSpec.parts]; [| |constructor].
      - destruct (String.eqb (ident n a) "__typename"); [constructor|].
        destruct (match get n o with Some v => Some v | None => get (ident n a) o end) as [v|] eqn:Es; [|constructor].
        assert (Kv : ok v) by (destruct (get n o) eqn:G; [injection Es as <-; eapply ok_get; [exact K|exact G]|eapply ok_get; [exact K|exact Es]]).
        assert (Rw : forall w, rep_with (is_nil sub) (fun o' => parts_of (fun y => parts y o') sub o') v = Some w -> ok w).
        { apply rep_with_ok; [|exact Kv]. intros o' K'. unfold parts_of.
          assert (F : Forall part_ok (flat_map (fun y => parts y o') sub)).
          { apply Forall_flat_map. eapply Forall_impl; [|exact IH]. intros y Hy. apply Hy, K'. }
          destruct (only_typename sub); [|exact F]. destruct (typename_of o'); [repeat constructor|exact F]. }
        assert (One : forall key r, (forall w, r = Some w -> ok w) -> Forall part_ok [PField key r]).
        { intros key r Hr. apply Forall_cons; [|apply Forall_nil]. destruct r; [exact (Hr _ eq_refl)|exact I]. }
        destruct v; (apply One; first [exact Rw|intros w E; injection E as <-; exact I]).
      - destruct (related pt o c); [|constructor]. unfold parts_of.
        assert (F : Forall part_ok (flat_map (fun y => parts y o) sub)).
        { apply Forall_flat_map. eapply Forall_impl; [|exact IH]. intros y Hy. apply Hy, K. }
        destruct (only_typename sub); [|exact F]. destruct (typename_of o); [repeat constructor|exact F].
    Qed.
    Lemma rep_ok sels v w : ok v -> rep pt sels v = Some w -> ok w.
    Proof.
      intros K E. eapply rep_with_ok; [|exact K|exact E]. intros o Ko. unfold obj_parts, parts_of.
      assert (F : Forall part_ok (flat_map (fun y => parts y o) sels)).
      { apply Forall_flat_map. apply Forall_forall. intros y _. apply parts_ok, Ko. }
      destruct (only_typename sels); [|exact F]. destruct (typename_of o); [repeat constructor|exact F].
    Qed.
  End Ok.

  Lemma dense_whole v : dense v = true -> field_value pt [] v = Some v.
  Proof.
    assert (G : forall v, dense v = true -> is_null v = false -> rep pt [] v = Some v).
    { clear v. induction v as [|fbits|iz|un|bb|str|rw|l IH|o IH] using value_ind'; intros D N; try reflexivity; try discriminate N.
      cbn [dense] in D. unfold rep. cbn [is_nil rep_with]. f_equal. f_equal.
      induction IH as [|x l Hx Hl IHl]; [reflexivity|]. cbn [forallb map] in *. apply andb_prop in D. destruct D as [D1 D2].
      apply andb_prop in D1. destruct D1 as [D0 D1]. apply negb_true_iff in D0.
      change (rep_with true (obj_parts pt []) x) with (rep pt [] x). rewrite Hx by assumption. cbn [somes]. f_equal. apply IHl; [exact D2|reflexivity]. }
    intros D. unfold field_value. destruct (is_null v) eqn:N; [destruct v; try discriminate N; reflexivity|]. apply G; assumption.
  Qed.
End C.
