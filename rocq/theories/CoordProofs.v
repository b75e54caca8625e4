(** Proofs about types within types. *)
From Coq Require Import String List Bool Arith Lia.
From Verif Require Import Ast ConsumerModel IntroModel CondModel NormModel WalkModel CoordModel CoordSpec.
Import ListNotations.
Local Open Scope string_scope.
Local Open Scope list_scope.

Lemma known_in n l : known n l = true <-> In n l.
Proof.
  unfold known. rewrite existsb_exists. split; [intros (x & I & E); apply String.eqb_eq in E; subst; exact I | intros I; exists n; split; [exact I | apply String.eqb_refl]].
Qed.
Lemma known_not n l : known n l = false <-> ~ In n l.
Proof. rewrite <- known_in. destruct (known n l); intuition congruence. Qed.
Lemma type_by_name_name sch n t : type_by_name sch n = Some t -> type_name t = n.
Proof. induction sch as [|[] sch IH]; cbn; try discriminate; auto. destruct (String.eqb_spec (type_name t0) n); [intros E; injection E as <-; assumption | exact IH]. Qed.
Lemma input_by_name_name l n f : input_by_name l n = Some f -> iv_name f = n /\ In f l.
Proof. unfold input_by_name. intros E. apply find_some in E as (I & E). apply String.eqb_eq in E. auto. Qed.

Section Types.
  Variable sch : list definition.
  Definition names : list string := flat_map (fun d => match d with TypeDef t => [type_name t] | _ => [] end) sch.
  Lemma names_short : length names <= length sch.
  Proof. unfold names. clear. induction sch as [|d l IH]; [apply le_n|]. cbn. rewrite app_length. destruct d; cbn; lia. Qed.
  Lemma named n t : type_by_name sch n = Some t -> In n names.
  Proof.
    unfold names. clear. induction sch as [|d l IH]; [discriminate|]. cbn. destruct d; cbn; auto. destruct (String.eqb_spec (type_name t0) n); [left; assumption | right; auto].
  Qed.
  Definition missing (v : list string) : nat := length (filter (fun n => negb (known n v)) names).
  Lemma missing_le v v' : incl v v' -> missing v' <= missing v.
  Proof.
    intros H. unfold missing. induction names as [|n l IH]; [apply le_n|]. cbn. destruct (known n v) eqn:E.
    - apply known_in in E. apply H in E. apply known_in in E. rewrite E. cbn. exact IH.
    - cbn. destruct (known n v'); cbn; lia.
  Qed.
  Lemma missing_lt v n : In n names -> ~ In n v -> missing (v ++ [n]) < missing v.
  Proof.
    intros I O. unfold missing. induction names as [|m l IH]; [destruct I|]. cbn.
    assert (LE : length (filter (fun n0 => negb (known n0 (v ++ [n]))) l) <= length (filter (fun n0 => negb (known n0 v)) l)).
    { clear. induction l as [|a l IH]; [apply le_n|]. cbn. destruct (known a v) eqn:E; cbn.
      - apply known_in in E. replace (known a (v ++ [n])) with true; [exact IH|]. symmetry. apply known_in. apply in_or_app. left. exact E.
      - destruct (known a (v ++ [n])); cbn; lia. }
    destruct (String.eqb_spec m n) as [->|D].
    - replace (known n (v ++ [n])) with true by (symmetry; apply known_in; apply in_or_app; right; left; reflexivity). apply known_not in O. rewrite O. cbn. lia.
    - destruct I as [I|I]; [congruence|]. specialize (IH I). destruct (known m v) eqn:E; cbn.
      + apply known_in in E. replace (known m (v ++ [n])) with true; [exact IH|]. symmetry. apply known_in. apply in_or_app. left. exact E.
      + replace (known m (v ++ [n])) with false; [cbn; lia|]. symmetry. apply known_not. intros J. apply in_app_iff in J as [J|[J|[]]]; [|congruence]. apply known_not in E. auto.
  Qed.

  (** References *)
  Definition refs_ok (n : string) (v v' : list string) : Prop :=
    incl v v' /\ In n v' /\ (forall x, In x v' -> In x v \/ reach sch n x) /\ (forall x, In x v' -> ~ In x v -> forall y, edge sch x y -> In y v').
  Lemma refs_in_ok rec l : (forall n v v', In n l -> rec n v = Some v' -> refs_ok n v v') -> forall v v', refs_in rec l v = Some v' ->
    incl v v' /\ (forall n, In n l -> In n v') /\ (forall x, In x v' -> In x v \/ exists n, In n l /\ reach sch n x) /\
    (forall x, In x v' -> ~ In x v -> forall y, edge sch x y -> In y v').
  Proof.
    induction l as [|n l IH]; intros R v v' E.
    - injection E as <-. split; [apply incl_refl|]. split; [intros n []|]. split; [auto | tauto].
    - cbn in E. destruct (rec n v) as [v1|] eqn:E1; [|discriminate]. destruct (R n v v1 (or_introl eq_refl) E1) as (A1 & B1 & C1 & D1).
      destruct (IH (fun m a b I => R m a b (or_intror I)) v1 v' E) as (A2 & B2 & C2 & D2). split; [apply (incl_tran A1 A2)|]. split; [|split].
      + intros m [<-|I]; auto.
      + intros x X. destruct (C2 x X) as [X1|(m & I & X1)]; [|right; exists m; split; [right; exact I | exact X1]].
        destruct (C1 x X1) as [X2|X2]; [left; exact X2 | right; exists n; split; [left; reflexivity | exact X2]].
      + intros x X O y Y. destruct (in_dec string_dec x v1) as [X1|X1]; [apply A2; apply (D1 x X1 O y Y) | apply (D2 x X X1 y Y)].
  Qed.
  Lemma refs_sound fuel : forall n v v', refs sch fuel n v = Some v' -> refs_ok n v v'.
  Proof.
    induction fuel as [|fuel IH]; intros n v v' E; cbn in E; destruct (known n v) eqn:K; try discriminate E;
      try (injection E as <-; apply known_in in K; split; [apply incl_refl|]; split; [exact K|]; split; [auto | tauto]).
    apply known_not in K.
    assert (LEAF : (forall y, ~ edge sch n y) -> Some (v ++ [n]) = Some v' -> refs_ok n v v').
    { intros N F. injection F as <-. split; [apply incl_appl, incl_refl|]. split; [apply in_or_app; right; left; reflexivity|]. split.
      - intros x X. apply in_app_iff in X as [X|[<-|[]]]; [left; exact X | right; apply reach_here].
      - intros x X O y Y. apply in_app_iff in X as [X|[<-|[]]]; [tauto | destruct (N y Y)]. }
    destruct (type_by_name sch n) as [[]|] eqn:T; try (apply LEAF; [intros y (m & d & ds & fs & f & U & _); congruence | exact E]).
    destruct (refs_in_ok (refs sch fuel) _ (fun m a b _ F => IH m a b F) _ _ E) as (A & B & C & D). split; [|split; [|split]].
    - intros x X. apply A. apply in_or_app. left. exact X.
    - apply A. apply in_or_app. right. left. reflexivity.
    - intros x X. destruct (C x X) as [X1|(m & I & X1)].
      + apply in_app_iff in X1 as [X1|[<-|[]]]; [left; exact X1 | right; apply reach_here].
      + right. apply in_map_iff in I as (f & <- & I). apply (reach_in sch n (inner_type (iv_type f))); [|exact X1]. exists name, desc, dirs, fields, f. auto.
    - intros x X O y Y. destruct (string_dec x n) as [->|NE].
      + destruct Y as (m & d & ds & fs & f & U & I & <-). rewrite T in U. injection U as -> -> -> ->. apply B. apply (in_map (fun f => inner_type (iv_type f))). exact I.
      + apply (D x X); [|exact Y]. intros J. apply in_app_iff in J as [J|[J|[]]]; congruence.
  Qed.
  Lemma refs_ends fuel : forall n v, missing v < fuel -> refs sch fuel n v <> None.
  Proof.
    induction fuel as [|fuel IH]; intros n v M; [lia|]. cbn. destruct (known n v) eqn:K; [discriminate|]. apply known_not in K.
    destruct (type_by_name sch n) as [[]|] eqn:T; try discriminate. assert (M' : missing (v ++ [n]) < fuel) by (pose proof (missing_lt v n (named n _ T) K); lia).
    clear K T M. generalize dependent (v ++ [n]). induction (map (fun f => inner_type (iv_type f)) fields) as [|m l IL]; intros w W; cbn; [discriminate|].
    destruct (refs sch fuel m w) as [w'|] eqn:E; [|destruct (IH m w W E)]. apply IL. apply refs_sound in E as (A & _). pose proof (missing_le _ _ A). lia.
  Qed.
  Lemma missing_enough v : missing v < enough sch.
  Proof.
    unfold enough, missing. pose proof names_short. assert (forall (p : string -> bool) l, length (filter p l) <= length l) as F.
    { intros p l. induction l as [|x l IH]; cbn; [lia|]. destruct (p x); cbn; lia. }
    pose proof (F (fun n => negb (known n v)) names). lia.
  Qed.
  Lemma refs_all n : exists l, refs sch (enough sch) n [] = Some l /\ forall x, In x l <-> reach sch n x.
  Proof.
    destruct (refs sch (enough sch) n []) as [l|] eqn:E; [|destruct (refs_ends _ _ _ (missing_enough []) E)]. exists l. split; [reflexivity|].
    apply refs_sound in E as (_ & B & C & D). intros x. split; [intros X; destruct (C x X) as [[]|X']; exact X'|].
    assert (CL : forall a b, reach sch a b -> In a l -> In b l) by (induction 1 as [a|a b c AB R IH]; auto; intros I; apply IH; apply (D a I); [intros [] | exact AB]).
    intros R. apply (CL n x R B).
  Qed.
  Lemma reach_trans a b c : reach sch a b -> reach sch b c -> reach sch a c.
  Proof. induction 1 as [|x y z E R IH]; [auto|]. intros T. apply (reach_in sch x y); auto. Qed.

  (** Nested types *)
  Definition is_input (n : string) : Prop := exists m d ds fs, type_by_name sch n = Some (InputObject m d ds fs).
  Definition done (s : list string * list coord) (n : string) : Prop :=
    (is_input n -> In n (fst s)) /\ (~ is_input n -> forall c, belongs sch n c -> In c (snd s)).
  Definition grows (s s' : list string * list coord) : Prop := incl (fst s) (fst s') /\ incl (snd s) (snd s').
  Definition full (s : list string * list coord) (x : string) : Prop :=
    (forall c, belongs sch x c -> In c (snd s)) /\ (forall y, edge sch x y -> done s y).
  Definition closed (s : list string * list coord) : Prop := forall x, In x (fst s) -> full s x.
  Definition nested_ok (src : string -> Prop) (s s' : list string * list coord) : Prop :=
    grows s s' /\ (forall x, In x (fst s') -> ~ In x (fst s) -> full s' x) /\
    (forall c, In c (snd s') -> In c (snd s) \/ exists n x, src n /\ reach sch n x /\ belongs sch x c).
  Lemma grows_refl s : grows s s.
  Proof. split; apply incl_refl. Qed.
  Lemma grows_trans a b c : grows a b -> grows b c -> grows a c.
  Proof. intros (A & B) (C & D). split; eapply incl_tran; eassumption. Qed.
  Lemma done_grows s s' n : grows s s' -> done s n -> done s' n.
  Proof. intros (A & B) (C & D). split; [intros I; apply A; auto | intros I c X; apply B; eauto]. Qed.
  Lemma full_grows s s' n : grows s s' -> full s n -> full s' n.
  Proof. intros G (A & B). split; [intros c X; apply (proj2 G); auto | intros y Y; apply (done_grows s); auto]. Qed.
  Lemma closed_step src s s' : nested_ok src s s' -> closed s -> closed s'.
  Proof. intros (G & N & _) C x X. destruct (in_dec string_dec x (fst s)) as [I|O]; [apply (full_grows s); auto | auto]. Qed.
  Lemma nested_in_ok rec t fs0 fs : incl fs fs0 -> (exists d ds, type_by_name sch t = Some (InputObject t d ds fs0)) ->
    (forall n s s', rec n s = Some s' -> nested_ok (eq n) s s' /\ done s' n) ->
    forall s s', nested_in rec t fs s = Some s' ->
      nested_ok (eq t) s s' /\ forall f, In f fs -> In (CMember t (iv_name f)) (snd s') /\ done s' (inner_type (iv_type f)).
  Proof.
    intros I (d & ds & T) R. induction fs as [|f fs IH]; intros s s' E.
    - injection E as <-. split; [|intros f []]. split; [apply grows_refl|]. split; [tauto | auto].
    - cbn in E. destruct (rec (inner_type (iv_type f)) (fst s, snd s ++ [CMember t (iv_name f)])) as [s1|] eqn:E1; [|discriminate].
      destruct (R _ _ _ E1) as ((G1 & N1 & C1) & D1). assert (I' : incl fs fs0) by (intros x X; apply I; right; exact X).
      destruct (IH I' s1 s' E) as ((G2 & N2 & C2) & F2). cbn [fst snd] in *.
      assert (G0 : grows s s1) by (destruct G1 as (A & B); split; [exact A | intros c X; apply B; apply in_or_app; left; exact X]).
      split; [split; [apply (grows_trans _ _ _ G0 G2)|split]|].
      + intros x X O. destruct (in_dec string_dec x (fst s1)) as [X1|X1]; [apply (full_grows s1); auto | auto].
      + intros c X. destruct (C2 c X) as [X1|X1]; [|right; exact X1]. destruct (C1 c X1) as [X2|(n & x & <- & RX & BX)].
        * apply in_app_iff in X2 as [X2|[<-|[]]]; [left; exact X2|]. right. exists t, t. split; [reflexivity|]. split; [apply reach_here|]. unfold belongs. rewrite T. exists f. split; [apply I; left; reflexivity | reflexivity].
        * right. exists t, x. split; [reflexivity|]. split; [|exact BX]. apply (reach_in sch t (inner_type (iv_type f))); [|exact RX]. exists t, d, ds, fs0, f. repeat split; auto. apply I. left. reflexivity.
      + intros g [<-|J]; [|apply F2; exact J]. split; [apply (proj2 G2), (proj2 G1); apply in_or_app; right; left; reflexivity | apply (done_grows s1); auto].
  Qed.
  Lemma builtin_iff n : is_builtin_scalar n = true <-> builtin n.
  Proof. apply known_in. Qed.
  Lemma nested_sound fuel : forall n s s', nested sch fuel n s = Some s' -> nested_ok (eq n) s s' /\ done s' n.
  Proof.
    induction fuel as [|fuel IH]; intros n s s' E; cbn [nested] in E.
    all: assert (LEAF : forall l, ~ is_input n -> (forall c, In c l <-> belongs sch n c) -> Some (fst s, snd s ++ l) = Some s' -> nested_ok (eq n) s s' /\ done s' n) by
      (intros l NI BL F; injection F as <-; split; [split; [split; [apply incl_refl | apply incl_appl, incl_refl]|split]|split];
        [cbn; tauto | cbn; intros c X; apply in_app_iff in X as [X|X]; [left; exact X | right; exists n, n; split; [reflexivity|]; split; [apply reach_here | apply BL; exact X]]
        | tauto | intros _ c X; cbn; apply in_or_app; right; apply BL; exact X]).
    all: assert (LEAF0 : ~ is_input n -> (forall c, ~ belongs sch n c) -> Some s = Some s' -> nested_ok (eq n) s s' /\ done s' n) by
      (intros NI NB F; injection F as <-; split; [split; [apply grows_refl|split]|split]; [tauto | auto | tauto | intros _ c X; destruct (NB c X)]).
    all: destruct (type_by_name sch n) as [t|] eqn:T.
    1, 3: assert (TN := type_by_name_name _ _ _ T).
    1, 2: destruct t as [m d ds|m d im ds fs|m d im ds fs|m d ds ms|m d ds vs|m d ds fs]; cbn in TN; subst m;
      try (apply LEAF0; [intros (? & ? & ? & ? & U); congruence | unfold belongs; rewrite T; tauto | exact E]);
      try (apply (LEAF _ ltac:(intros (? & ? & ? & ? & U); congruence)) with (2 := E); intros c; unfold belongs; rewrite T; cbn; intuition congruence);
      try (apply (LEAF _ ltac:(intros (? & ? & ? & ? & U); congruence)) with (2 := E); intros c; unfold belongs; rewrite T; rewrite in_map_iff; split; intros (v & A & B); exists v; split; congruence).
    3, 4: destruct (is_builtin_scalar n) eqn:B; [apply builtin_iff in B; apply (LEAF _ ltac:(intros (? & ? & ? & ? & U); congruence)) with (2 := E); intros c; unfold belongs; rewrite T; cbn; intuition congruence
      | apply LEAF0; [intros (? & ? & ? & ? & U); congruence | unfold belongs; rewrite T; intros c (B' & _); apply builtin_iff in B'; congruence | exact E]].
    all: destruct (known n (fst s)) eqn:K; try discriminate E.
    1, 2: injection E as <-; apply known_in in K; split; [split; [apply grows_refl|]; split; [tauto | auto] | split; [intros _; exact K | intros NI; destruct NI; exists n, d, ds, fs; exact T]].
    apply known_not in K. destruct (nested_in_ok (nested sch fuel) n fs fs (incl_refl _) ltac:(exists d, ds; exact T) (IH) _ _ E) as ((G & N & C) & F). cbn [fst snd] in *.
    assert (IN : In n (fst s')) by (apply (proj1 G); apply in_or_app; right; left; reflexivity).
    split; [split; [|split]|].
    - destruct G as (G1 & G2). split; [intros x X; apply G1; apply in_or_app; left; exact X | exact G2].
    - intros x X O. destruct (string_dec x n) as [->|NE].
      + split.
        * unfold belongs. rewrite T. intros c (f & I & ->). apply F. exact I.
        * intros y (m & d' & ds' & fs' & f & U & I & <-). rewrite T in U. injection U as <- <- <- <-. apply F. exact I.
      + apply N; [exact X|]. intros J. apply in_app_iff in J as [J|[J|[]]]; congruence.
    - exact C.
    - split; [intros _; exact IN | intros NI; destruct NI; exists n, d, ds, fs; exact T].
  Qed.
  Lemma nested_ends fuel : forall n s, missing (fst s) < fuel -> nested sch fuel n s <> None.
  Proof.
    induction fuel as [|fuel IH]; intros n s M; [lia|]. cbn [nested]. destruct (type_by_name sch n) as [t|] eqn:T; [|destruct (is_builtin_scalar n); discriminate].
    assert (TN := type_by_name_name _ _ _ T).
    destruct t as [m d ds|m d im ds fs|m d im ds fs|m d ds ms|m d ds vs|m d ds fs]; try discriminate. cbn in TN. subst m. destruct (known n (fst s)) eqn:K; [discriminate|]. apply known_not in K.
    assert (M' : missing (fst (fst s ++ [n], snd s)) < fuel) by (pose proof (missing_lt (fst s) n (named n _ T) K); cbn; lia).
    clear K T M. generalize dependent (fst s ++ [n], snd s). induction fs as [|f l IL]; intros w W; cbn [nested_in]; [discriminate|].
    destruct (nested sch fuel _ _) as [w'|] eqn:E; [|exact (False_ind _ (IH _ (fst w, _) W E))]. apply IL. apply nested_sound in E as ((G & _) & _). pose proof (missing_le _ _ (proj1 G)). cbn in *. lia.
  Qed.
  Lemma closed_done s n : closed s -> done s n -> forall c, within sch n c -> In c (snd s).
  Proof.
    intros C D c (x & R & B). revert D. induction R as [a|a b x E R IH]; intros D.
    - destruct D as (D1 & D2). destruct (type_by_name sch a) as [[]|] eqn:T; try (apply D2; [intros (? & ? & ? & ? & U); congruence | exact B]).
      apply (C a); [apply D1; eexists _, _, _, _; exact T | exact B].
    - apply IH; [exact B|]. apply (C a); [|exact E]. apply D. destruct E as (m & d & ds & fs & f & T & _). exists m, d, ds, fs. exact T.
  Qed.
  (** A call of [nested] adds just what is within the type *)
  Lemma nested_adds n s : closed s -> exists s', nested sch (enough sch) n s = Some s' /\ closed s' /\ forall c, In c (snd s') <-> In c (snd s) \/ within sch n c.
  Proof.
    intros C. destruct (nested sch (enough sch) n s) as [s'|] eqn:E; [|destruct (nested_ends _ _ _ (missing_enough _) E)]. exists s'. split; [reflexivity|].
    destruct (nested_sound _ _ _ _ E) as (O & D). assert (C' := closed_step _ _ _ O C). split; [exact C'|]. intros c. destruct O as (G & _ & S). split.
    - intros X. destruct (S c X) as [X1|(m & x & <- & R & B)]; [left; exact X1 | right; exists x; auto].
    - intros [X|X]; [apply (proj2 G); exact X | apply (closed_done s' n C' D c X)].
  Qed.
  Lemma nested_all_adds l : forall s, closed s -> exists s', nested_all sch l s = Some s' /\ forall c, In c (snd s') <-> In c (snd s) \/ exists n, In n l /\ within sch n c.
  Proof.
    induction l as [|n l IH]; intros s C; cbn [nested_all].
    - exists s. split; [reflexivity|]. intros c. split; [auto | intros [X|(n & [] & _)]; exact X].
    - destruct (nested_adds n s C) as (s1 & E1 & C1 & A1). rewrite E1. destruct (IH s1 C1) as (s2 & E2 & A2). exists s2. split; [exact E2|]. intros c. rewrite A2, A1. split.
      + intros [[X|X]|(m & I & X)]; [left; exact X | right; exists n; split; [left; reflexivity | exact X] | right; exists m; split; [right; exact I | exact X]].
      + intros [X|(m & [<-|I] & X)]; [left; left; exact X | left; right; exact X | right; exists m; split; assumption].
  Qed.
End Types.
