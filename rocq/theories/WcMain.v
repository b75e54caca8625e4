(* What follows for streams, messages and the handshake. *)
From Coq Require Import String List Bool Arith NArith Lia.
From Verif Require Import StrUtil WcModel WcSpec WcBase WcProofs.
Import ListNotations.
Open Scope string_scope.
Open Scope list_scope.

Section Main.
  Variable parse : string -> string -> option string.

  Lemma streams tr c k : steps parse start tr = Some c -> numbered k ->
    match since k tr with
    | Some (payload, paths, tail) => of_view c (name k) payload paths (sees parse (name k) payload paths tail)
    | None => unknown c (name k)
    end.
  Proof. intros H. apply (i_view parse tr c (inv_steps parse tr c H)). Qed.
  Lemma the_map tr c i paths : steps parse start tr = Some c ->
    (get i (subs c) = Some paths <-> exists k payload tail, numbered k /\ i = name k /\ since k tr = Some (payload, paths, tail) /\
                                       v_live (sees parse i payload paths tail) = true).
  Proof.
    intros H. pose proof (inv_steps parse tr c H) as I. split.
    - intros G. destruct (i_known parse tr c I i) as (k & L & U & ->); [congruence|].
      pose proof (i_view parse tr c I k U) as V. destruct (since k tr) as [[[p q] t]|] eqn:S; [|apply since_none in S; lia].
      destruct V as (_ & G' & _). rewrite G in G'. destruct (v_live _) eqn:Lv; [|discriminate]. injection G' as ->.
      exists k, p, t. auto.
    - intros (k & p & t & U & -> & S & Lv). pose proof (i_view parse tr c I k U) as V. rewrite S in V. destruct V as (_ & G & _). rewrite Lv in G. exact G.
  Qed.

  Section View.
    Variables id payload paths : string.
    Let vs := vstep parse id payload paths.
    Let see := sees parse id payload paths.
    Lemma see_snoc t a : see (t ++ [a]) = vs (see t) a.
    Proof. unfold see, sees. rewrite fold_left_app. reflexivity. Qed.

    (* What is said, by who has the stream *)
    Definition words (v : view) : Prop :=
      match v_owner v with
      | Writing => v_said v = []
      | Owned => v_said v = [WSubscribe id payload]
      | Gone => v_said v = [] \/ v_said v = [WSubscribe id payload] \/ v_said v = [WSubscribe id payload; WComplete id]
      end /\ (v_owner v = Gone -> v_live v = false) /\ (v_open v = false -> v_live v = false) /\
      (v_owner v <> Gone -> v_open v = v_live v).
    Lemma words_ok t : words (see t).
    Proof.
      induction t as [|a t IH] using rev_ind; [repeat split; try discriminate; reflexivity|].
      rewrite see_snoc. destruct (see t) as [its op li ow sa]. unfold words in *. cbn in IH. destruct IH as (W & G & O & B).
      assert (X : forall its', words (mkview its' false false ow sa)).
      { intros its'. unfold words. cbn. repeat split; auto. }
      assert (Y : forall its', words (mkview its' op li ow sa)).
      { intros its'. unfold words. cbn. repeat split; auto. }
      unfold words in X, Y.
      destruct a as [p q| |w|r|i| |]; cbn [vs vstep v_live v_owner v_items v_open v_said].
      - destruct li; cbn [effect_of]; exact (Y its).
      - destruct ow; cbn; [|exact (Y its)|exact (Y its)]. cbn in B. subst sa. repeat split; try discriminate; auto. intros _. apply B. discriminate.
      - destruct ow; cbn; [|exact (Y its)|exact (Y its)]. subst sa. repeat split; auto; [destruct w; auto|]. intros K. destruct (K eq_refl).
      - destruct li; [|exact (Y its)]. unfold vs, vstep. cbn [v_live]. destruct (effect_of parse id paths (Receive r)); [exact (Y its)| |exact (X its)].
        cbn. repeat split; auto.
      - destruct ow; cbn; [exact (Y its)| |exact (Y its)]. destruct (String.eqb i id); [|exact (Y its)]. cbn. subst sa. repeat split; auto.
        + destruct li; cbn; auto.
        + intros K. destruct (K eq_refl).
      - destruct li; cbn [effect_of]; exact (Y its).
      - destruct li; [exact (X its)|exact (Y its)].
    Qed.

    Lemma effect_over a : match effect_of parse id paths a with
                          | Ends l => over id a /\ l = last_words a
                          | _ => ~ over id a
                          end.
    Proof.
      destruct a as [p q| |w|r|i| |]; try (cbn; tauto).
      destruct r as [f| |]; try (cbn; split; [discriminate|reflexivity]).
      destruct f as [[m|]| | |d| | |]; try (cbn; tauto); try (cbn; split; [discriminate|reflexivity]).
      destruct m as [| | |i p|i es|i]; cbn; try tauto; destruct (String.eqb_spec i id) as [E|E]; auto.
    Qed.
    (* A stream that ended, and one that did not *)
    Lemma follow t : (v_open (see t) = false -> exists l x r, t = l ++ x :: r /\ (forall y, In y l -> ~ over id y) /\ over id x /\ v_items (see t) = answers parse id paths l ++ last_words x) /\
                  (v_live (see t) = true -> (forall y, In y t -> ~ over id y) /\ v_items (see t) = answers parse id paths t).
    Proof.
        induction t as [|a t IH] using rev_ind; [split; [discriminate|]; intros _; split; [easy|reflexivity]|].
        rewrite see_snoc. pose proof (words_ok t) as (_ & Wg & Wo & Wb). destruct (see t) as [its op li ow sa]. cbn [v_open v_live v_items v_owner] in *.
        destruct IH as [I1 I2].
        assert (Y : forall its' op' li' ow' sa', its' = its -> op' = op -> (li' = true -> li = true /\ effect_of parse id paths a = Silent) ->
                   let v := mkview its' op' li' ow' sa' in
                   (v_open v = false -> exists l x r, t ++ [a] = l ++ x :: r /\ (forall y, In y l -> ~ over id y) /\ over id x /\ v_items v = answers parse id paths l ++ last_words x) /\
                   (v_live v = true -> (forall y, In y (t ++ [a]) -> ~ over id y) /\ v_items v = answers parse id paths (t ++ [a]))).
        { intros its' op' li' ow' sa' -> -> Li. cbn. split.
          - intros F. destruct (I1 F) as (l & x & r & -> & A & B & C). exists l, x, (r ++ [a]). rewrite <- app_assoc. auto.
          - intros F. destruct (Li F) as [F' S]. destruct (I2 F') as [A B]. split.
            + intros y H. apply in_app_iff in H as [H|[<-|[]]]; [auto|]. pose proof (effect_over a) as E. rewrite S in E. exact E.
            + unfold answers in *. rewrite flat_map_app. cbn. rewrite S, app_nil_r. exact B. }
        assert (Z : li = true -> effect_of parse id paths a = Silent \/ True) by auto. clear Z.
        assert (E : forall v', (if li then match effect_of parse id paths a with
                                           | Silent => mkview its op li ow sa
                                           | Gets i => mkview (its ++ [i]) op true ow sa
                                           | Ends l => mkview (its ++ l) false false ow sa
                                           end else mkview its op li ow sa) = v' ->
                   (v_open v' = false -> exists l x r, t ++ [a] = l ++ x :: r /\ (forall y, In y l -> ~ over id y) /\ over id x /\ v_items v' = answers parse id paths l ++ last_words x) /\
                   (v_live v' = true -> (forall y, In y (t ++ [a]) -> ~ over id y) /\ v_items v' = answers parse id paths (t ++ [a]))).
        { intros v' <-. destruct li; [|apply Y; auto; discriminate]. pose proof (effect_over a) as Ea.
          destruct (I2 eq_refl) as [A B]. destruct (effect_of parse id paths a) as [|i|l] eqn:Ef.
          - apply Y; auto.
          - cbn. split.
            + intros F. destruct (I1 F) as (l & x & r & -> & _ & B2 & _). destruct (A x); [|exact B2]. apply in_app_iff. right. left. reflexivity.
            + intros _. split.
              * intros y H. apply in_app_iff in H as [H|[<-|[]]]; auto.
              * unfold answers in *. rewrite flat_map_app. cbn. rewrite Ef, B. reflexivity.
          - cbn. split; [|discriminate]. intros _. destruct Ea as [O ->]. exists t, a, []. rewrite B. auto. }
        destruct a as [p q| |w|r|i| |]; try (apply E; reflexivity).
        - unfold vs, vstep. cbn [v_owner v_items v_open v_live v_said]. destruct ow; apply Y; auto.
        - unfold vs, vstep. cbn [v_owner v_items v_open v_live v_said]. destruct ow; apply Y; auto; discriminate.
        - unfold vs, vstep. cbn [v_owner v_items v_open v_live v_said]. destruct ow; try (apply Y; auto; fail). destruct (String.eqb i id); apply Y; auto; discriminate.
    Qed.
    Lemma ended t : v_open (see t) = false ->
      exists l x r, t = l ++ x :: r /\ (forall y, In y l -> ~ over id y) /\ over id x /\ v_items (see t) = answers parse id paths l ++ last_words x.
    Proof. apply follow. Qed.
    Lemma unended t : v_open (see t) = true -> v_owner (see t) <> Gone ->
      (forall y, In y t -> ~ over id y) /\ v_items (see t) = answers parse id paths t.
    Proof. intros O W. pose proof (words_ok t) as (_ & _ & _ & B). specialize (B W). rewrite O in B. apply follow. auto. Qed.
    (* When its end is announced *)
    Lemma writes t : v_owner (see t) = Writing -> forall x, In x t -> x <> Sent /\ forall w, x <> NotSent w.
    Proof.
      induction t as [|a t IH] using rev_ind; [easy|]. rewrite see_snoc. intros H x K.
      assert (W : v_owner (see t) = Writing /\ a <> Sent /\ forall w, a <> NotSent w).
      { destruct (see t) as [its op li ow sa]. unfold vs, vstep in H. cbn [v_owner v_live v_items v_open v_said] in *. destruct a as [p q| |w|r|i| |]; cbn [v_owner] in H.
        - split; [destruct li; exact H|]. split; discriminate.
        - destruct ow; discriminate H.
        - destruct ow; discriminate H.
        - split; [|split; discriminate]. destruct li; [|exact H]. destruct (effect_of parse id paths (Receive r)); exact H.
        - split; [|split; discriminate]. destruct ow; try exact H. destruct (String.eqb i id); [discriminate H|exact H].
        - split; [destruct li; exact H|]. split; discriminate.
        - split; [destruct li; exact H|]. split; discriminate. }
      destruct W as (W & A & B). apply in_app_iff in K as [K|[<-|[]]]; auto.
    Qed.
    Lemma owned t : v_owner (see t) = Owned -> exists a b, t = a ++ Sent :: b /\ (forall x, In x a -> x <> Sent /\ forall w, x <> NotSent w) /\ forall x, In x b -> x <> Drop id.
    Proof.
      induction t as [|a t IH] using rev_ind; [discriminate|]. rewrite see_snoc. intros H. pose proof (writes t) as Wt.
      destruct (see t) as [its op li ow sa]. cbn [v_owner] in *.
      assert (X : ow = Owned -> a <> Drop id -> exists l b, t ++ [a] = l ++ Sent :: b /\ (forall x, In x l -> x <> Sent /\ forall w, x <> NotSent w) /\ forall x, In x b -> x <> Drop id).
      { intros O N. destruct (IH O) as (l & b & -> & A & B). exists l, (b ++ [a]). rewrite <- app_assoc. split; [reflexivity|]. split; [exact A|].
        intros x K. apply in_app_iff in K as [K|[<-|[]]]; auto. }
      unfold vs, vstep in H. cbn [v_owner v_live v_items v_open v_said] in H. destruct a as [p q| |w|r|i| |].
      - apply X; [destruct li; exact H|discriminate].
      - destruct ow; [|apply X; [reflexivity|discriminate]|discriminate]. exists t, []. split; [reflexivity|]. split; [apply Wt; reflexivity|easy].
      - destruct ow; [discriminate| |discriminate]. apply X; [reflexivity|discriminate].
      - apply X; [|discriminate]. destruct li; [|exact H]. destruct (effect_of parse id paths (Receive r)); exact H.
      - destruct ow; try discriminate. destruct (String.eqb_spec i id) as [E|E]; [discriminate|]. apply X; [reflexivity|congruence].
      - apply X; [destruct li; exact H|discriminate].
      - apply X; [destruct li; exact H|discriminate].
    Qed.
    Definition cancelled (t : list action) : Prop :=
      exists a b d, t = a ++ Sent :: b ++ Drop id :: d /\
        (forall x, In x a -> ~ over id x /\ x <> Sent /\ (forall w, x <> NotSent w)) /\ (forall x, In x b -> ~ over id x /\ x <> Drop id).
    Lemma announced t : In (WComplete id) (v_said (see t)) -> cancelled t.
    Proof.
      induction t as [|a t IH] using rev_ind; [easy|]. rewrite see_snoc. intros H.
      assert (X : In (WComplete id) (v_said (see t)) -> cancelled (t ++ [a])).
      { intros K. destruct (IH K) as (l & b & d & -> & A & B). exists l, b, (d ++ [a]). split; [|auto]. rewrite <- app_assoc. cbn. rewrite <- app_assoc. reflexivity. }
      pose proof (owned t) as Ot. pose proof (follow t) as [_ Ft].
      destruct (see t) as [its op li ow sa]. cbn [v_owner v_live v_items v_open v_said] in *.
      unfold vs, vstep in H. cbn [v_owner v_live v_items v_open v_said] in H. destruct a as [p q| |w|r|i| |].
      - apply X. destruct li; exact H.
      - destruct ow; try (apply X; exact H). apply X. cbn in H. apply in_app_iff in H as [H|[H|[]]]; [exact H|discriminate].
      - destruct ow; try (apply X; exact H). apply X. cbn in H. apply in_app_iff in H as [H|H]; [exact H|]. destruct w; [destruct H as [H|[]]; discriminate|destruct H].
      - apply X. destruct li; [|exact H]. destruct (effect_of parse id paths (Receive r)); exact H.
      - destruct ow; try (apply X; exact H). destruct (String.eqb_spec i id) as [E|E]; [|apply X; exact H]. subst i. cbn in H.
        apply in_app_iff in H as [H|H]; [auto|]. destruct li; [|destruct H]. destruct (Ft eq_refl) as [F _]. destruct (Ot eq_refl) as (l & b & -> & A & B).
        exists l, b, []. split; [rewrite <- app_assoc; reflexivity|]. split.
        + intros x K. split; [|auto]. apply F. apply in_app_iff. auto.
        + intros x K. split; [|auto]. apply F. apply in_app_iff. right. right. exact K.
      - apply X. destruct li; exact H.
      - apply X. destruct li; exact H.
    Qed.
    Lemma keep_writing l : forall v, (forall x, In x l -> ~ over id x /\ x <> Sent /\ (forall w, x <> NotSent w)) -> v_owner v = Writing -> v_live v = true ->
      v_owner (fold_left vs l v) = Writing /\ v_live (fold_left vs l v) = true.
    Proof.
      induction l as [|a l IH]; intros v H O L; [auto|]. cbn [fold_left].
      destruct (H a (or_introl eq_refl)) as (A & B & C). pose proof (effect_over a) as E.
      apply IH; [intros x K; apply H; right; exact K| |].
      all: unfold vs, vstep; destruct a as [p q| |w|r|i| |]; try congruence; try (rewrite O); try (rewrite L; destruct (effect_of _ _ _ _); try tauto; auto; fail); auto.
      all: destruct (C w eq_refl).
    Qed.
    Lemma keep_owned l : forall v, (forall x, In x l -> ~ over id x /\ x <> Drop id) -> v_owner v = Owned -> v_live v = true ->
      v_owner (fold_left vs l v) = Owned /\ v_live (fold_left vs l v) = true.
    Proof.
      induction l as [|a l IH]; intros v H O L; [auto|]. cbn [fold_left].
      destruct (H a (or_introl eq_refl)) as (A & B). pose proof (effect_over a) as E.
      apply IH; [intros x K; apply H; right; exact K| |].
      all: unfold vs, vstep; destruct a as [p q| |w|r|i| |]; try congruence; try (rewrite O); try (rewrite L; destruct (effect_of _ _ _ _); try tauto; auto; fail); auto.
      all: destruct (String.eqb_spec i id); [congruence|auto].
    Qed.
    Lemma keep_said l : forall v x, In x (v_said v) -> In x (v_said (fold_left vs l v)).
    Proof.
      induction l as [|a l IH]; intros v x H; [exact H|]. cbn [fold_left]. apply IH.
      unfold vs, vstep. destruct a as [p q| |w|r|i| |].
      - destruct (v_live v); exact H.
      - destruct (v_owner v); auto. cbn. apply in_app_iff. auto.
      - destruct (v_owner v); auto. cbn. apply in_app_iff. auto.
      - destruct (v_live v); [|exact H]. destruct (effect_of parse id paths (Receive r)); exact H.
      - destruct (v_owner v); auto. destruct (String.eqb i id); auto. cbn. apply in_app_iff. auto.
      - destruct (v_live v); exact H.
      - destruct (v_live v); exact H.
    Qed.
    Lemma announces t : cancelled t -> In (WComplete id) (v_said (see t)).
    Proof.
      intros (a & b & d & -> & A & B). unfold see, sees. rewrite fold_left_app. cbn [fold_left]. rewrite fold_left_app. cbn [fold_left].
      apply keep_said. change (In (WComplete id) (v_said (vs (fold_left vs b (vs (fold_left vs a fresh) Sent)) (Drop id)))).
      destruct (keep_writing a fresh A eq_refl eq_refl) as [W L]. set (v := fold_left vs a fresh) in *.
      assert (S : vs v Sent = mkview (v_items v) (v_open v) (v_live v) Owned (v_said v ++ [WSubscribe id payload])) by (unfold vs, vstep; rewrite W; reflexivity).
      destruct (keep_owned b (vs v Sent) B) as [O2 L2]; [rewrite S; reflexivity|rewrite S; exact L|].
      set (u := fold_left vs b (vs v Sent)) in *. unfold vs at 1, vstep. rewrite O2, String.eqb_refl, L2. cbn. apply in_app_iff. right. left. reflexivity.
    Qed.
  End View.

  Lemma which tr c id : steps parse start tr = Some c -> (exists k, k < calls tr /\ numbered k /\ id = name k) \/ unknown c id.
  Proof.
    intros H. pose proof (inv_steps parse tr c H) as I.
    destruct (in_dec string_dec id (map name (filter (fun k => N.ltb (N.of_nat k) 18446744073709551614) (seq 0 (calls tr))))) as [D|D].
    - left. apply in_map_iff in D as (k & <- & D). apply filter_In in D as [D U]. apply in_seq in D. apply N.ltb_lt in U. exists k. split; [lia|auto].
    - right. apply (i_other parse tr c I). intros k L U ->. apply D. apply in_map, filter_In. split; [apply in_seq; lia|]. apply N.ltb_lt. exact U.
  Qed.
  Lemma view_of tr c k : steps parse start tr = Some c -> k < calls tr -> numbered k ->
    exists payload paths tail, since k tr = Some (payload, paths, tail) /\ of_view c (name k) payload paths (sees parse (name k) payload paths tail).
  Proof.
    intros H L U. pose proof (streams tr c k H U) as V. destruct (since k tr) as [[[p q] t]|] eqn:S; [eauto|]. apply since_none in S. lia.
  Qed.
  Lemma protocol tr c id : steps parse start tr = Some c ->
    filter (about id) (written c) = [] \/
    exists payload, filter (about id) (written c) = [WSubscribe id payload] \/ filter (about id) (written c) = [WSubscribe id payload; WComplete id].
  Proof.
    intros H. destruct (which tr c id H) as [(k & L & U & ->)|(_ & _ & _ & _ & F)]; [|auto].
    destruct (view_of tr c k H L U) as (p & q & t & _ & _ & _ & _ & _ & ->).
    pose proof (words_ok (name k) p q t) as (W & _). destruct (v_owner _); [auto|right; exists p; auto|]. destruct W as [W|W]; [auto|right; exists p; exact W].
  Qed.
  Lemma said tr c k payload paths tail w : steps parse start tr = Some c -> numbered k -> since k tr = Some (payload, paths, tail) ->
    (In w (v_said (sees parse (name k) payload paths tail)) <-> In w (written c) /\ about (name k) w = true).
  Proof.
    intros H U S. pose proof (streams tr c k H U) as V. rewrite S in V. destruct V as (_ & _ & _ & _ & <-). apply filter_In.
  Qed.
  Lemma complete_iff tr c k payload paths tail : steps parse start tr = Some c -> numbered k -> since k tr = Some (payload, paths, tail) ->
    (In (WComplete (name k)) (written c) <-> cancelled (name k) tail).
  Proof.
    intros H U S. split.
    - intros K. apply (announced (name k) payload paths). apply (said tr c k payload paths tail _ H U S). split; [exact K|]. cbn. apply String.eqb_refl.
    - intros K. apply (announces (name k) payload paths) in K. apply (said tr c k payload paths tail _ H U S) in K. apply K.
  Qed.
  Lemma stream_ended tr c k payload paths tail ch : steps parse start tr = Some c -> numbered k -> since k tr = Some (payload, paths, tail) ->
    get (name k) (channels c) = Some ch -> ch_open ch = false ->
    exists l x r, tail = l ++ x :: r /\ (forall y, In y l -> ~ over (name k) y) /\ over (name k) x /\
                  ch_items ch = answers parse (name k) paths l ++ last_words x.
  Proof.
    intros H U S G O. pose proof (streams tr c k H U) as V. rewrite S in V. destruct V as (C & _). rewrite G in C. injection C as ->. cbn in O |- *.
    apply ended. exact O.
  Qed.
  Lemma stream_open tr c k payload paths tail ch : steps parse start tr = Some c -> numbered k -> since k tr = Some (payload, paths, tail) ->
    get (name k) (channels c) = Some ch -> ch_open ch = true -> (In (name k) (held c) \/ starting c = Some (name k, payload)) ->
    (forall y, In y tail -> ~ over (name k) y) /\ ch_items ch = answers parse (name k) paths tail.
  Proof.
    intros H U S G O W. pose proof (streams tr c k H U) as V. rewrite S in V. destruct V as (C & _ & St & Ow & _). rewrite G in C. injection C as ->. cbn in O |- *.
    apply (unended (name k) payload paths tail O). intros K. rewrite K in St, Ow. destruct W as [W|W]; [apply Ow in W; discriminate|exact (St _ W)].
  Qed.
  Lemma exhausted tr c p q c' : steps parse start tr = Some c -> ~ numbered (calls tr) -> step parse c (Begin p q) = Some c' -> c' = c.
  Proof.
    intros H U E. pose proof (i_next parse tr c (inv_steps parse tr c H)) as X. cbn in E. destruct (starting c); [discriminate|]. destruct (alive c); [|discriminate].
    injection E as <-. unfold begin, numbered, u64_max in *. destruct (N.eqb_spec (next c) 18446744073709551615); [reflexivity|lia].
  Qed.

  (* ** What is written about no subscription *)
  Lemma general_step c a c' : step parse c a = Some c' -> filter general (written c') = filter general (written c) ++ says a.
  Proof.
    intros E. destruct a as [p q| |w|r|i| |]; cbn [step] in E.
    - destruct (starting c); [discriminate|]. destruct (alive c); [|discriminate]. injection E as <-. unfold begin. cbn. rewrite app_nil_r. destruct (N.eqb _ _); reflexivity.
    - destruct (starting c) as [[i p]|]; [|discriminate]. injection E as <-. cbn. rewrite filter_app. reflexivity.
    - destruct (starting c) as [[i p]|]; [|discriminate]. injection E as <-. unfold drop_guard.
      destruct w; cbn; destruct (get i (subs c)); cbn; rewrite ?filter_app; cbn; rewrite ?app_nil_r; reflexivity.
    - destruct (running c); [|discriminate]. injection E as <-.
      destruct r as [f| |]; [|cbn; rewrite !app_nil_r; reflexivity|cbn; rewrite !app_nil_r; reflexivity].
      destruct f as [[m|]| | |d| | |]; cbn; rewrite ?filter_app; cbn; rewrite ?app_nil_r; try reflexivity.
      destruct m as [| | |i p|i es|i]; cbn; rewrite ?filter_app; cbn; rewrite ?app_nil_r; try reflexivity.
      all: destruct (get i (subs c)); cbn; rewrite ?filter_app; cbn; rewrite ?app_nil_r; reflexivity.
    - destruct (existsb (String.eqb i) (held c)); [|discriminate]. injection E as <-. unfold drop_guard. cbn.
      destruct (get i (subs c)); cbn; rewrite ?filter_app; cbn; rewrite ?app_nil_r; reflexivity.
    - destruct (starting c); [discriminate|]. destruct (alive c); [|discriminate]. injection E as <-. cbn. rewrite filter_app. reflexivity.
    - destruct (running c); [|discriminate]. injection E as <-. cbn. rewrite !app_nil_r. reflexivity.
  Qed.
  Lemma general_all tr c : steps parse start tr = Some c -> filter general (written c) = flat_map says tr.
  Proof.
    revert c. induction tr as [|a tr IH] using rev_ind; intros c H; [injection H as <-; reflexivity|].
    rewrite steps_snoc in H. destruct (steps parse start tr) as [c0|]; [|discriminate].
    rewrite (general_step c0 a c H), (IH c0 eq_refl), flat_map_app. cbn. rewrite app_nil_r. reflexivity.
  Qed.

  (* ** The dispatcher *)
  Lemma running_step c a c' : step parse c a = Some c' -> (running c' = true <-> running c = true /\ ~ dead a).
  Proof.
    intros E. destruct a as [p q| |w|r|i| |]; cbn [step] in E.
    - destruct (starting c); [discriminate|]. destruct (alive c); [|discriminate]. injection E as <-. unfold begin. cbn. destruct (N.eqb _ _); cbn; tauto.
    - destruct (starting c) as [[i p]|]; [|discriminate]. injection E as <-. cbn. tauto.
    - destruct (starting c) as [[i p]|]; [|discriminate]. injection E as <-. unfold drop_guard.
      destruct w; cbn; destruct (get i (subs c)); cbn; tauto.
    - destruct (running c) eqn:R; [|discriminate]. injection E as <-. cbn [dead].
      assert (X : forall w, w <> None -> (false = true <-> true = true /\ ~ (w <> @None cerror))) by (intros w W; split; [discriminate|tauto]).
      assert (Y : forall b : bool, b = true -> (b = true <-> true = true /\ ~ (@None cerror <> None))) by (intros b ->; split; auto).
      destruct r as [f| |]; [|apply X; discriminate|apply X; discriminate].
      destruct f as [[m|]| | |d| | |]; cbn; try (apply X; discriminate); try (apply Y; assumption).
      destruct m as [| | |i p|i es|i]; cbn; try (apply Y; assumption).
      all: destruct (get i (subs c)); apply Y; assumption.
    - destruct (existsb (String.eqb i) (held c)); [|discriminate]. injection E as <-. unfold drop_guard. cbn.
      destruct (get i (subs c)); cbn; tauto.
    - destruct (starting c); [discriminate|]. destruct (alive c); [|discriminate]. injection E as <-. cbn. tauto.
    - destruct (running c); [|discriminate]. injection E as <-. cbn. split; [discriminate|tauto].
  Qed.
  Lemma running_all tr c : steps parse start tr = Some c -> (running c = true <-> forall a, In a tr -> ~ dead a).
  Proof.
    revert c. induction tr as [|a tr IH] using rev_ind; intros c H; [injection H as <-; split; [easy|reflexivity]|].
    rewrite steps_snoc in H. destruct (steps parse start tr) as [c0|]; [|discriminate].
    rewrite (running_step c0 a c H), (IH c0 eq_refl). split.
    - intros [A B] x K. apply in_app_iff in K as [K|[<-|[]]]; auto.
    - intros A. split; [intros x K|]; apply A; apply in_app_iff; cbn; auto.
  Qed.
  (* Once it ended, nothing goes into any stream. *)
  Lemma late_step c a c' i ch : running c = false -> step parse c a = Some c' -> get i (channels c) = Some ch -> taken c a <> Some i ->
    running c' = false /\ get i (channels c') = Some ch.
  Proof.
    intros R E G T. split.
    - destruct (running c') eqn:R'; [|reflexivity]. apply (running_step c a c' E) in R' as [K _]. congruence.
    - destruct a as [p q| |w|r|j| |]; cbn [step] in E; rewrite ?R in E; try discriminate.
      + destruct (starting c); [discriminate|]. destruct (alive c); [|discriminate]. injection E as <-. cbn in T. unfold begin. destruct (N.eqb _ _); [exact G|]. cbn.
        destruct (String.eqb_spec (N_to_dec (next c)) i); [congruence|exact G].
      + destruct (starting c) as [[j p]|]; [|discriminate]. injection E as <-. exact G.
      + destruct (starting c) as [[j p]|]; [|discriminate]. injection E as <-. unfold drop_guard. destruct w; cbn; destruct (get j (subs c)); exact G.
      + destruct (existsb (String.eqb j) (held c)); [|discriminate]. injection E as <-. unfold drop_guard. cbn. destruct (get j (subs c)); exact G.
      + destruct (starting c); [discriminate|]. destruct (alive c); [|discriminate]. injection E as <-. exact G.
  Qed.
  Lemma steps_app l : forall c l', steps parse c (l ++ l') = match steps parse c l with Some c' => steps parse c' l' | None => None end.
  Proof. induction l as [|a l IH]; intros c l'; cbn [app steps]; [reflexivity|]. destruct (step parse c a); [apply IH|reflexivity]. Qed.
  Lemma calls_app l l' : calls (l ++ l') = calls l + calls l'.
  Proof. induction l as [|a l IH]; [reflexivity|]. destruct a; cbn [app calls]; rewrite IH; reflexivity. Qed.
  Lemma late tr c k ch more c' : steps parse start tr = Some c -> running c = false -> k < calls tr -> numbered k -> get (name k) (channels c) = Some ch ->
    steps parse c more = Some c' -> get (name k) (channels c') = Some ch.
  Proof.
    intros H R L U G E. assert (A : steps parse start (tr ++ more) = Some c') by (rewrite steps_app, H; exact E). clear E.
    assert (X : running c' = false /\ get (name k) (channels c') = Some ch); [|apply X].
    revert c' A. induction more as [|a more IH] using rev_ind; intros c' A.
    - rewrite app_nil_r, H in A. injection A as <-. auto.
    - rewrite app_assoc, steps_snoc in A. destruct (steps parse start (tr ++ more)) as [d|] eqn:D; [|discriminate].
      destruct (IH d eq_refl) as [Rd Gd]. apply (late_step d a c' (name k) ch Rd A Gd). intros T.
      destruct a; try discriminate. cbn in T. destruct (N.eqb_spec (next d) u64_max) as [F|F]; [discriminate|]. injection T as T.
      pose proof (i_next parse _ _ (inv_steps parse _ d D)) as N. rewrite calls_app in N. unfold name in T. apply QplanGroup.N_to_dec_inj in T. unfold u64_max in *. lia.
  Qed.
  (* As it ends, every subscription is told. *)
  Lemma told_step c a c' : step parse c a = Some c' -> dead a -> subs c' = [].
  Proof.
    intros E D. destruct a as [p q| |w|r|i| |]; try (destruct D; fail); cbn in E, D; destruct (running c); try discriminate; injection E as <-; [|reflexivity].
    destruct r as [f| |]; try reflexivity. destruct f as [[m|]| | |d| | |]; try reflexivity; cbn in D; try congruence.
  Qed.
End Main.

(* ** The handshake *)
Lemma init_idle pre : Forall idle pre -> forall rest, init_loop (pre ++ rest) = (flat_map answer pre ++ fst (init_loop rest), snd (init_loop rest)).
Proof.
  induction 1 as [|x pre H _ IH]; intros rest; cbn [app flat_map]; [destruct (init_loop rest); reflexivity|].
  destruct x as [f| |]; try (destruct H; fail). destruct f as [[m|]| | |d| | |]; try (destruct H; fail); cbn [init_loop parse_frame answer];
    [destruct m; try (destruct H; fail)| | |]; cbn [answer app]; rewrite IH; reflexivity.
Qed.
Lemma init_acked pre rest : Forall idle pre -> init (pre ++ Frame (RText (Some SAck)) :: rest) = (WInit :: flat_map answer pre, Ready rest).
Proof. intros H. unfold init. rewrite (init_idle pre H). cbn. rewrite app_nil_r. reflexivity. Qed.
Lemma init_waits l : Forall idle l -> init l = (WInit :: flat_map answer l, Waiting).
Proof. intros H. unfold init. rewrite <- (app_nil_r l) at 1. rewrite (init_idle l H). cbn. rewrite app_nil_r. reflexivity. Qed.
Lemma init_fails pre x rest w e : Forall idle pre -> init_refused x w e -> init (pre ++ x :: rest) = (WInit :: flat_map answer pre ++ w, Refused e).
Proof.
  intros H K. unfold init. rewrite (init_idle pre H). destruct x as [f| |]; cbn in K.
  - destruct f as [[m|]| | |d| | |]; try (destruct K; fail); [destruct m; try (destruct K; fail)| |]; destruct K as [-> ->]; reflexivity.
  - destruct K as [-> ->]. reflexivity.
  - destruct K as [-> ->]. reflexivity.
Qed.
Lemma init_loop_ready l : forall ws rest, init_loop l = (ws, Ready rest) -> exists pre, l = pre ++ Frame (RText (Some SAck)) :: rest /\ Forall (fun r => idle r \/ unreadable r) pre.
Proof.
  induction l as [|x l IH]; intros ws rest H; [discriminate|].
  assert (X : snd (init_loop l) = Ready rest -> idle x \/ unreadable x ->
              exists pre, x :: l = pre ++ Frame (RText (Some SAck)) :: rest /\ Forall (fun r => idle r \/ unreadable r) pre).
  { intros E I. destruct (init_loop l) as [u r]. cbn in E. subst r. destruct (IH u rest eq_refl) as (pre & -> & F). exists (x :: pre). split; [reflexivity|]. constructor; assumption. }
  destruct x as [f| |]; try discriminate. unfold unreadable in *. destruct f as [[m|]| | |d| | |]; cbn in H; try discriminate; try (apply X; [destruct (init_loop l); injection H as _ ->; reflexivity|cbn; auto]; fail).
  destruct m; try discriminate; try (apply X; [destruct (init_loop l); injection H as _ ->; reflexivity|cbn; auto]; fail). injection H as <- <-. exists []. split; [reflexivity|constructor].
Qed.
Lemma init_ready l ws rest : init l = (ws, Ready rest) -> exists pre, l = pre ++ Frame (RText (Some SAck)) :: rest /\ Forall (fun r => idle r \/ unreadable r) pre.
Proof. unfold init. destruct (init_loop l) as [u r] eqn:E. intros H. injection H as _ ->. exact (init_loop_ready l u rest E). Qed.
