From Coq Require Import String Ascii List NArith ZArith Bool Lia.
From Verif Require Import StrOrd StrUtil JsonModel JsonWriterModel JsonText JsonWriterProofs Ast TraverseModel
  ProjModel ProjSpec ProjProofs ProjTextProofs RequiresModel RequiresSpec.
Import ListNotations.
Local Open Scope string_scope.

(** induction over values inside objects and arrays *)
Section P.
  Variable ryu : N -> string.
  Variable pt : ptypes.
  Notation pv := (print_value ryu).
  Notation item := (item ryu pt).
  Notation parts := (parts pt).

  Definition out_of (first : bool) (key : option string) (buf : string) (r : option value) : bool * string :=
    match r with
    | None => (false, buf)
    | Some w => (true, write_key first key buf ++ pv w)
    end.

  Definition mtext (kv : string * value) : string := q1 ++ fst kv ++ q1 ++ ":" ++ pv (snd kv).
  (** the writer's state after the parts [ps] of an object *)
  Definition st_of (tn : option string) (pkey : option string) (pfirst : bool) (buf : string) (ps : list part)
    : bool * string :=
    match members tn ps with
    | [] => (true, buf)
    | ms => (false, write_key pfirst pkey buf ++ "{" ++ join "," (map mtext ms))
    end.

  (** keys of every object in a value are written unescaped by the projection *)
  Definition plain_members (ps : list part) : bool :=
    forallb (fun p => match p with PField k _ => plain k | PBare => true end) ps.

  Lemma pv_scalar v : match v with VNull | VArr _ | VObj _ => False | _ => True end -> pv v = scalar_text ryu v.
  Proof. destruct v; try reflexivity; intros []. Qed.

  Lemma join_snoc l x : l <> [] -> join "," (l ++ [x])%list = join "," l ++ "," ++ x.
  Proof.
    induction l as [|y l IH]; [contradiction|]. intros _. destruct l as [|z l]; [reflexivity|].
    change (join "," ((y :: z :: l) ++ [x])%list) with (y ++ "," ++ join "," ((z :: l) ++ [x])%list).
    rewrite IH by discriminate. change (join "," (y :: z :: l)) with (y ++ "," ++ join "," (z :: l)).
    rewrite !app_assoc_s. reflexivity.
  Qed.

  Lemma write_key_app first k buf : write_key first (Some k) buf = buf ++ (if first then "" else ",") ++ q1 ++ k ++ q1 ++ ":".
  Proof. unfold write_key. destruct first; cbn [append]; rewrite ?app_assoc_s; reflexivity. Qed.

  Lemma write_key_none first buf : write_key first None buf = buf ++ (if first then "" else ",").
  Proof. unfold write_key. destruct first; [rewrite string_app_nil_r|]; reflexivity. Qed.

  Lemma members_app tn ps p : ps <> [] ->
    members tn (ps ++ [p])%list = (members tn ps ++ match p with PField k (Some v) => [(k, v)] | _ => [] end)%list.
  Proof.
    destruct ps as [|p0 ps]; [contradiction|]. intros _. unfold members. cbn [List.app]. rewrite <- app_assoc.
    f_equal. change (p0 :: ps ++ [p])%list with ((p0 :: ps) ++ [p])%list. rewrite flat_map_app.
    f_equal. cbn [flat_map]. rewrite app_nil_r. reflexivity.
  Qed.

  Lemma typename_text t : pv (VObj [("__typename", VStr t)]) = "{" ++ mtext ("__typename", VStr t) ++ "}".
  Proof. cbn. reflexivity. Qed.

  Lemma write_typename_mtext t buf : write_typename t buf = buf ++ mtext ("__typename", VStr t).
  Proof. unfold write_typename, mtext, q1. cbn [fst snd print_value]. reflexivity. Qed.

  (** opening the object and writing one more member *)
  Lemma open_state tn pkey pfirst buf ps :
    (let '(first0, buf0) := st_of tn pkey pfirst buf ps in
     if first0 then
       let b := write_key pfirst pkey buf0 ++ "{" in
       match tn with Some t => (false, write_typename t b) | None => (true, b) end
     else (first0, buf0)) =
    match members tn (ps ++ [PField "" None])%list with
    | [] => (true, write_key pfirst pkey buf ++ "{")
    | ms => (false, write_key pfirst pkey buf ++ "{" ++ join "," (map mtext ms))
    end.
  Proof.
    unfold st_of. destruct ps as [|p ps].
    - cbn [members List.app flat_map]. destruct tn as [t|]; cbn; [|reflexivity].
      rewrite write_typename_mtext. rewrite app_assoc_s. reflexivity.
    - rewrite members_app by discriminate. rewrite app_nil_r.
      destruct (members tn (p :: ps)) as [|m ms] eqn:E; [|reflexivity].
      unfold members in E. destruct tn as [t|]; [discriminate|]. reflexivity.
  Qed.

  Section Obj.
    (** what is known about the value of a field *)
    Variable whole : bool.
    Variable obj : list (string * value) -> option string -> bool -> bool * string -> bool * string.
    Variable objp : list (string * value) -> list part.
    Variable tidyo : list (string * value) -> bool.
    Hypothesis obj_ok : forall o key first buf, tidyo o = true ->
      obj o key first (true, buf) = st_of (typename_of o) key first buf (objp o).
    Hypothesis obj_nil : objp [] = [].
    Hypothesis obj_plain : forall o, tidyo o = true -> plain_members (objp o) = true.

    Lemma pv_members ms : Forall (fun kv => plain (fst kv) = true) ms ->
      pv (VObj ms) = "{" ++ join "," (map mtext ms) ++ "}".
    Proof.
      intros F. cbn [print_value]. f_equal. f_equal. f_equal. induction F as [|kv ms H F IH]; [reflexivity|].
      cbn [map]. f_equal; [|exact IH]. rewrite plain_quoted by exact H. unfold mtext. rewrite !app_assoc_s. reflexivity.
    Qed.
    Lemma plain_typename : plain "__typename" = true. Proof. reflexivity. Qed.
    Lemma members_plain tn ps : plain_members ps = true -> Forall (fun kv => plain (fst kv) = true) (members tn ps).
    Proof.
      intros H. assert (F : Forall (fun kv => plain (fst kv) = true)
        (flat_map (fun p => match p with PField k (Some v) => [(k, v)] | _ => [] end) ps)).
      { induction ps as [|p ps IH]; [constructor|]. cbn in H. apply andb_prop in H. destruct H as [H1 H2].
        cbn [flat_map]. apply Forall_app. split; [|apply IH, H2]. destruct p as [k [v|]|]; repeat constructor. exact H1. }
      unfold members. destruct ps; [constructor|]. apply Forall_app. split; [|exact F].
      destruct tn; repeat constructor.
    Qed.

    Lemma project_with_ok v : tidy_with whole tidyo v = true -> forall buf first key,
      project_with ryu whole obj v buf first key = out_of first key buf (rep_with whole objp v).
    Proof using obj_ok obj_nil obj_plain.
      induction v as [|fbits|iz|un|bb|str|raw|l IH|o IH] using value_ind'; intros T buf first key; try reflexivity.
      - cbn [project_with rep_with out_of print_value].
        match goal with |- (let '(_, _) := ?fx l true ?b in _) = _ => set (go := fx) end.
        assert (G : forall l, Forall (fun v => tidy_with whole tidyo v = true -> forall buf first key,
             project_with ryu whole obj v buf first key = out_of first key buf (rep_with whole objp v)) l ->
             forallb (tidy_with whole tidyo) l = true ->
             forall first b, exists f', go l first b = (f', b ++ (match somes (map (rep_with whole objp) l) with
                | [] => "" | _ => if first then "" else "," end) ++ join "," (map pv (somes (map (rep_with whole objp) l))))).
        { clear T IH l buf first key. induction l as [|x l IHl]; intros F T first b.
          - exists first. cbn. rewrite string_app_nil_r. reflexivity.
          - inversion F as [|? ? Fx Fl]; subst. cbn [forallb] in T. apply andb_prop in T. destruct T as [Tx Tl].
            cbn [go]. fold go. rewrite (Fx Tx). cbn [map somes].
            destruct (rep_with whole objp x) as [w|]; cbn [out_of somes].
            + destruct (IHl Fl Tl false (write_key first None b ++ pv w)) as [f' E]. exists f'. rewrite E. f_equal.
              rewrite write_key_none, !app_assoc_s. f_equal. f_equal. cbn [map].
              destruct (somes (map (rep_with whole objp) l)) as [|z zs]; cbn [map join]; [rewrite string_app_nil_r; reflexivity|].
              reflexivity.
            + destruct (IHl Fl Tl first b) as [f' E]. exists f'. exact E. }
        cbn [tidy_with] in T. destruct (G l IH T true (write_key first key buf ++ "[")) as [f' E]. rewrite E. f_equal.
        destruct (somes (map (rep_with whole objp) l)); cbn [map join]; rewrite !app_assoc_s; reflexivity.
      - cbn [project_with rep_with tidy_with] in *. destruct whole.
        + cbn [out_of]. rewrite (serialize_ok ryu). reflexivity.
        + cbn [orb] in T. destruct o as [|kv o].
          * rewrite obj_nil. reflexivity.
          * rewrite obj_ok by exact T. unfold st_of, assemble.
            pose proof (members_plain (typename_of (kv :: o)) (objp (kv :: o)) (obj_plain _ T)) as Pm.
            destruct (members (typename_of (kv :: o)) (objp (kv :: o))) as [|m ms]; [reflexivity|].
            cbn [out_of]. rewrite pv_members by exact Pm. rewrite !app_assoc_s. reflexivity.
    Qed.
  End Obj.

  (** keys of the selections are GraphQL names *)
  Fixpoint plain_sel (x : sel) : bool :=
    match x with
    | SField n a _ _ _ _ sub => plain (ident n a) && forallb plain_sel sub
    | SFrag _ _ _ sub => forallb plain_sel sub
    | SSpread _ => true
    end.

  Lemma parts_plain x : plain_sel x = true -> forall o, plain_members (parts x o) = true.
  Proof.
    assert (Hof : forall sub o (step : sel -> list part), Forall (fun y => plain_members (step y) = true) sub ->
      plain_members (parts_of step sub o) = true).
    { intros sub o step F. unfold parts_of. destruct (only_typename sub), (typename_of o); try reflexivity;
        (induction F as [|y sub Hy F IHF]; [reflexivity|]; cbn [flat_map]; unfold plain_members in *;
         rewrite forallb_app, Hy; exact IHF). }
    induction x as [n a args inc skip om sub IH|t inc skip sub IH|n] using sel_ind'; intros H o; [| |reflexivity].
    - cbn [plain_sel] in H. apply andb_prop in H. destruct H as [H1 H2]. cbn [parts RequiresSpec.parts].
      destruct (String.eqb (ident n a) "__typename"); [reflexivity|].
      destruct (match get n o with Some v => Some v | None => get (ident n a) o end) as [v|]; [|reflexivity].
      destruct v; cbn; rewrite ?H1; reflexivity.
    - cbn [plain_sel] in H. cbn [RequiresSpec.parts]. destruct (related pt o t); [|reflexivity]. apply Hof.
      rewrite forallb_forall in H. rewrite Forall_forall in *. intros y Hy. apply IH; [exact Hy|]. apply H, Hy.
  Qed.

  Lemma bare_first_app a b : bare_first (a ++ b)%list = true ->
    bare_first a = true /\ (a <> [] -> forallb (fun p => match p with PBare => false | _ => true end) b = true).
  Proof.
    unfold bare_first. destruct a as [|x a]; cbn [List.app tl].
    - intros _. split; [reflexivity|contradiction].
    - rewrite forallb_app. intros H. apply andb_prop in H. destruct H. split; auto.
  Qed.

  (** the loop over selections *)
  Lemma steps_ok (step : sel -> bool * string -> bool * string) (ps : sel -> list part) tn pkey pfirst buf :
    forall sels, Forall (fun x => forall done, bare_first (done ++ ps x)%list = true ->
       step x (st_of tn pkey pfirst buf done) = st_of tn pkey pfirst buf (done ++ ps x)) sels ->
    forall done, bare_first (done ++ flat_map ps sels)%list = true ->
    fold_left (fun st x => step x st) sels (st_of tn pkey pfirst buf done)
    = st_of tn pkey pfirst buf (done ++ flat_map ps sels).
  Proof.
    induction 1 as [|x sels Hx F IH]; intros done T; cbn [fold_left flat_map].
    - rewrite app_nil_r. reflexivity.
    - cbn [flat_map] in T. rewrite app_assoc in T. rewrite Hx by (apply bare_first_app in T; apply T).
      rewrite IH by exact T. rewrite app_assoc. reflexivity.
  Qed.

  Lemma map_with_ok (step : sel -> bool * string -> bool * string) (ps : sel -> list part) o pkey pfirst buf sels :
    Forall (fun x => forall done, bare_first (done ++ ps x)%list = true ->
       step x (st_of (typename_of o) pkey pfirst buf done) = st_of (typename_of o) pkey pfirst buf (done ++ ps x)) sels ->
    forall done, bare_first (done ++ parts_of ps sels o)%list = true ->
    map_with step sels o pkey pfirst (st_of (typename_of o) pkey pfirst buf done)
    = st_of (typename_of o) pkey pfirst buf (done ++ parts_of ps sels o).
  Proof.
    intros F done T. unfold map_with, parts_of in *.
    destruct (only_typename sels); [|apply steps_ok; assumption].
    destruct (typename_of o) as [t|] eqn:E; [|apply steps_ok; assumption].
    destruct done as [|p done].
    - cbn. rewrite write_typename_mtext, !app_assoc_s. reflexivity.
    - apply bare_first_app in T. destruct T as [_ T]. specialize (T ltac:(discriminate)). discriminate T.
  Qed.

  Lemma flat_map_nil {A B} (f : A -> list B) l : (forall x, In x l -> f x = []) -> flat_map f l = [].
  Proof.
    induction l as [|x l IH]; intros H; [reflexivity|]. cbn. rewrite H by (left; reflexivity).
    apply IH. intros y Hy. apply H. right. exact Hy.
  Qed.

  (** nothing can be taken from an empty object *)
  Lemma parts_empty x : parts x [] = [].
  Proof.
    induction x as [n a args inc skip om sub IH|t inc skip sub IH|n] using sel_ind'; [| |reflexivity].
    - cbn. destruct (String.eqb (ident n a) "__typename"); reflexivity.
    - cbn. unfold parts_of. cbn. rewrite Forall_forall in IH.
      destruct (only_typename sub); apply flat_map_nil; exact IH.
  Qed.
  Lemma obj_parts_empty sels : obj_parts pt sels [] = [].
  Proof.
    unfold obj_parts, parts_of. cbn. destruct (only_typename sels); apply flat_map_nil; intros; apply parts_empty.
  Qed.
  Lemma parts_of_plain sub o (step : sel -> list part) : Forall (fun y => plain_members (step y) = true) sub ->
    plain_members (parts_of step sub o) = true.
  Proof.
    intros F. unfold parts_of. destruct (only_typename sub), (typename_of o); try reflexivity;
      (induction F as [|y l Hy F IHF]; [reflexivity|]; cbn [flat_map]; unfold plain_members in *;
       rewrite forallb_app, Hy; exact IHF).
  Qed.
  Lemma obj_parts_plain sels o : forallb plain_sel sels = true -> plain_members (obj_parts pt sels o) = true.
  Proof.
    intros H. apply parts_of_plain. rewrite forallb_forall in H. apply Forall_forall. intros y Hy.
    apply parts_plain. apply H, Hy.
  Qed.

  Lemma related_eq o c :
    (let t := match typename_of o with Some t => t | None => c end in satisfies pt t c || satisfies pt c t) = related pt o c.
  Proof.
    unfold related. destruct (typename_of o); [reflexivity|]. cbv zeta. unfold satisfies. rewrite String.eqb_refl. reflexivity.
  Qed.

  Definition item_good (x : sel) : Prop := forall o pkey pfirst buf done,
    tidy_item pt x o = true -> bare_first (done ++ parts x o)%list = true ->
    item x o pkey pfirst (st_of (typename_of o) pkey pfirst buf done)
    = st_of (typename_of o) pkey pfirst buf (done ++ parts x o).

  Lemma sub_project sub : Forall item_good sub -> forallb plain_sel sub = true ->
    forall v, tidy pt sub v = true -> forall buf first key,
    project_requires ryu pt sub v buf first key = out_of first key buf (rep pt sub v).
  Proof.
    intros F Pl v T buf first key. unfold project_requires, rep, tidy in *.
    eapply project_with_ok; [| |intros o _; apply obj_parts_plain; exact Pl|exact T].
    - intros o key' first' buf' To. apply andb_prop in To. destruct To as [T1 T2].
      unfold obj_parts in *. change (true, buf') with (st_of (typename_of o) key' first' buf' []).
      rewrite <- (app_nil_l (parts_of (fun y => parts y o) sub o)).
      apply map_with_ok; [|exact T1].
      rewrite forallb_forall in T2. rewrite Forall_forall in *. intros y Hy done Td.
      apply F; [exact Hy|apply T2, Hy|exact Td].
    - apply obj_parts_empty.
  Qed.

  Lemma item_ok x : plain_sel x = true -> item_good x.
  Proof.
    induction x as [n a args inc skip om sub IH|t inc skip sub IH|n] using sel_ind'; intros Pl o pkey pfirst buf done T B.
    - cbn [plain_sel] in Pl. apply andb_prop in Pl. destruct Pl as [Pk Ps].
      assert (F : Forall item_good sub).
      { rewrite forallb_forall in Ps. rewrite Forall_forall in *. intros y Hy. apply IH; [exact Hy|apply Ps, Hy]. }
      cbn [RequiresModel.item RequiresSpec.parts tidy_item] in *.
      destruct (String.eqb (ident n a) "__typename") eqn:Ek; [rewrite app_nil_r; reflexivity|].
      destruct (match get n o with Some v => Some v | None => get (ident n a) o end) as [v|]; [|rewrite app_nil_r; reflexivity].
      set (key := ident n a) in *. clearbody key.
      pose proof (open_state (typename_of o) pkey pfirst buf done) as Op.
      destruct (st_of (typename_of o) pkey pfirst buf done) as [first0 buf0] eqn:Es.
      cbv zeta in Op. rewrite Op. clear Op.
      set (opened := (done ++ [PField "" None])%list).
      assert (Mn : forall w, members (typename_of o) (done ++ [PField key w])%list
                   = (members (typename_of o) opened ++ match w with Some v => [(key, v)] | None => [] end)%list).
      { intros w. unfold opened. destruct done as [|p done].
        - unfold members. cbn [List.app flat_map]. destruct w; rewrite ?app_nil_r; reflexivity.
        - rewrite !members_app by discriminate. rewrite app_nil_r. reflexivity. }
      (* writing one member *)
      assert (Wr : forall v',
        (let '(first, b) := match members (typename_of o) opened with
           | [] => (true, write_key pfirst pkey buf ++ "{")
           | ms => (false, write_key pfirst pkey buf ++ "{" ++ join "," (map mtext ms)) end in
         (false, write_key first (Some key) b ++ pv v'))
        = st_of (typename_of o) pkey pfirst buf (done ++ [PField key (Some v')])).
      { intros v'. unfold st_of. rewrite Mn. destruct (members (typename_of o) opened) as [|m ms].
        - cbn [List.app map join]. rewrite write_key_app. unfold mtext. cbn [fst snd append].
          rewrite !app_assoc_s. cbn [append]. reflexivity.
        - cbn [List.app]. change (m :: ms ++ [(key, v')])%list with ((m :: ms) ++ [(key, v')])%list.
          rewrite map_app. cbn [map]. rewrite join_snoc by (destruct ms; discriminate).
          rewrite write_key_app. unfold mtext at 3. cbn [fst snd].
          f_equal. rewrite !app_assoc_s. reflexivity. }
      destruct (is_null v) eqn:En.
      + destruct v; try discriminate En. specialize (Wr VNull).
        destruct (members (typename_of o) opened); exact Wr.
      + assert (Pv : (match v with VNull => [PField key (Some VNull)] | _ =>
                  [PField key (rep_with (is_nil sub) (fun o' => parts_of (fun y => parts y o') sub o') v)] end)
                = [PField key (rep pt sub v)]) by (destruct v; try discriminate En; reflexivity).
        rewrite Pv in *. clear Pv.
        assert (Ts : tidy pt sub v = true) by exact T.
        pose proof (sub_project sub F Ps v Ts) as Sp. unfold project_requires in Sp.
        destruct (members (typename_of o) opened) as [|m ms] eqn:Em; rewrite Sp;
          destruct (rep pt sub v) as [w|] eqn:Er; cbn [out_of].
        * apply (Wr w).
        * (* nothing written: roll back *)
          assert (E0 : first0 = true /\ buf0 = buf).
          { unfold st_of in Es. destruct done as [|p done].
            - cbn in Es. injection Es as <- <-. auto.
            - unfold opened in Em. rewrite members_app in Em by discriminate. rewrite app_nil_r in Em. rewrite Em in Es.
              injection Es as <- <-. auto. }
          destruct E0 as [-> ->]. unfold st_of. rewrite Mn. cbn [List.app]. f_equal.
          unfold truncate_to. clear.
          assert (Tk : forall s, take_str (String.length buf) (buf ++ s) = buf).
          { intros s. induction buf as [|c b IHb]; cbn; [destruct s; reflexivity|]. rewrite IHb. reflexivity. }
          unfold write_key. destruct pfirst, pkey; rewrite ?app_assoc_s; apply Tk.
        * apply (Wr w).
        * unfold st_of. rewrite Mn, app_nil_r. reflexivity.
    - cbn [plain_sel] in Pl. cbn [RequiresModel.item RequiresSpec.parts tidy_item] in *. rewrite related_eq.
      destruct (related pt o t); [|rewrite app_nil_r; reflexivity].
      apply map_with_ok; [|exact B].
      rewrite forallb_forall in T, Pl. rewrite Forall_forall in *. intros y Hy done' B'.
      apply IH; [exact Hy|apply Pl, Hy|apply T, Hy|exact B'].
    - cbn. rewrite app_nil_r. reflexivity.
  Qed.

  Lemma project_requires_ok sels v : forallb plain_sel sels = true -> tidy pt sels v = true ->
    forall buf first key, project_requires ryu pt sels v buf first key = out_of first key buf (rep pt sels v).
  Proof.
    intros Pl T. apply sub_project; [|exact Pl|exact T]. rewrite forallb_forall in Pl. apply Forall_forall.
    intros y Hy. apply item_ok, Pl, Hy.
  Qed.
End P.
