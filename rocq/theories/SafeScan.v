(** The two halves of one level: looking for places, then adding what found none. *)
From Coq Require Import String List NArith Bool Arith Lia.
From Verif Require Import Ast QplanModel BestModel SafeModel SafeSpec SafeBase.
Import ListNotations.
Local Open Scope list_scope.

Lemma flat_map_ext_in {A B} (f g : A -> list B) l :
  (forall x, In x l -> f x = g x) -> flat_map f l = flat_map g l.
Proof.
  induction l as [|x l IH]; cbn; intros E; [auto|].
  rewrite E by (left; auto). rewrite IH; [auto|]. intros y I. apply E. right. auto.
Qed.

Section Halves.
  Variable H : list write -> N.
  Variable flags : bool * bool.
  Notation agree := (agree H).
  Notation seg_of := (seg_of H).
  Notation merge := (merge_with H false (absorb H flags false)).

  Definition join (x t : sel) : bool := same x t && agree x t.
  Definition clash (x t : sel) : bool := same x t && negb (agree x t).

  Lemma join_same x t : join x t = true -> same x t = true.
  Proof. intros E. now apply andb_true_iff in E. Qed.
  Lemma clash_same x t : clash x t = true -> same x t = true.
  Proof. intros E. now apply andb_true_iff in E. Qed.

  Lemma slot_with t r : slot_of (with_subs t r) = slot_of t.
  Proof. destruct t; reflexivity. Qed.
  Lemma step_with t r : step_of (with_subs t r) = step_of t.
  Proof. destruct t; reflexivity. Qed.
  Lemma agree_with x t r : agree x (with_subs t r) = agree x t.
  Proof. destruct x, t; reflexivity. Qed.
  Lemma same_with x t r : same x (with_subs t r) = same x t.
  Proof. unfold same. now rewrite slot_with. Qed.
  Lemma join_with x t r : join x (with_subs t r) = join x t.
  Proof. unfold join. now rewrite same_with, agree_with. Qed.
  Lemma clash_with x t r : clash x (with_subs t r) = clash x t.
  Proof. unfold clash. now rewrite same_with, agree_with. Qed.

  Lemma same_slot x t : same x t = true -> slot_of x = slot_of t.
  Proof. intros E. apply same_ok in E as (s & -> & ->). auto. Qed.
  Lemma same_refl x : slot_of x <> None -> same x x = true.
  Proof. intros E. apply same_ok. destruct (slot_of x) as [s|]; [eauto|congruence]. Qed.

  (** ** First half *)
  Record joined := mkjoined { j_res : list sel; j_t : renaming; j_s : renaming; j_new : records }.

  Definition f1 (src : list sel) (info : option slot -> joined) (t : sel) : sel :=
    if existsb (fun x => join x t) src then with_subs t (j_res (info (slot_of t))) else t.

  Definition fate (tgt : list sel) (i : nat) (x : sel) (d : decision) : Prop :=
    match d with
    | Copied => forall t, In t tgt -> same x t = false
    | Merged => exists t, In t tgt /\ join x t = true
    | Conflict p => exists j t, nth_error tgt j = Some t /\ clash x t = true /\ side flags i j = Ok p
    end.
  Inductive acts_ok (tgt : list sel) : nat -> list sel -> list action -> Prop :=
  | acts_nil i : acts_ok tgt i [] []
  | acts_cons i x src d acts :
      fate tgt i x d -> acts_ok tgt (S i) src acts -> acts_ok tgt i (x :: src) (todo x d ++ acts).

  Definition gathered (tgt src : list sel) (info : option slot -> joined) : records :=
    flat_map (fun x => if existsb (join x) tgt then j_new (info (slot_of x)) else []) src.

  Lemma slot_opt_dec (a b : option slot) : {a = b} + {a <> b}.
  Proof. decide equality. apply slot_eq_dec. Qed.

  Lemma nth_error_swap {A} (l1 : list A) t u l2 j y :
    nth_error (l1 ++ u :: l2) j = Some y ->
    nth_error (l1 ++ t :: l2) j = Some y \/ (j = length l1 /\ y = u /\ nth_error (l1 ++ t :: l2) j = Some t).
  Proof.
    intros E. destruct (Nat.lt_trichotomy j (length l1)) as [L|[L|L]].
    - left. rewrite nth_error_app1 in E |- *; auto.
    - right. subst j. rewrite nth_error_app2 in E |- * by lia. rewrite Nat.sub_diag in *. cbn in *.
      injection E as ->. auto.
    - left. rewrite nth_error_app2 in E |- * by lia. destruct (j - length l1) eqn:D; [lia|]. exact E.
  Qed.

  Lemma fate_back l1 t r l2 i x d :
    fate (l1 ++ with_subs t r :: l2) i x d -> fate (l1 ++ t :: l2) i x d.
  Proof.
    destruct d as [|p|]; cbn.
    - intros (u & I & J). apply in_app_or in I as [I|[<-|I]].
      + exists u. split; auto. apply in_or_app; auto.
      + exists t. split; [apply in_or_app; right; left; auto|]. now rewrite join_with in J.
      + exists u. split; auto. apply in_or_app; right; right; auto.
    - intros (j & u & E & C & Si). apply nth_error_swap with (t := t) in E as [E|(-> & -> & E)].
      + eauto.
      + rewrite clash_with in C. eauto.
    - intros F u I. apply in_app_or in I as [I|[<-|I]].
      + apply F, in_or_app; auto.
      + rewrite <- (same_with x t r). apply F, in_or_app; right; left; auto.
      + apply F, in_or_app; right; right; auto.
  Qed.

  Lemma acts_back l1 t r l2 i src acts :
    acts_ok (l1 ++ with_subs t r :: l2) i src acts -> acts_ok (l1 ++ t :: l2) i src acts.
  Proof. induction 1; constructor; auto. eapply fate_back; eauto. Qed.

  Section Scan.
    Variable Pre : list sel -> list sel -> Prop.
    Variable Post : list seg -> list sel -> list sel -> joined -> Prop.

    Definition works (x : sel) : Prop :=
      forall path tgt st R st',
        Pre tgt (subs x) -> merge path tgt (subs x) st = Ok (R, st') ->
        exists jn, j_res jn = R /\ snd st' = snd st ++ j_new jn /\ (fst st <= fst st')%N /\
                   Post path tgt (subs x) jn.

    Lemma existsb_swap x l1 t r l2 :
      existsb (join x) (l1 ++ with_subs t r :: l2) = existsb (join x) (l1 ++ t :: l2).
    Proof. rewrite !existsb_app. cbn. now rewrite join_with. Qed.

    Lemma scan_ok src : forall i path T st T' st' acts,
      NoDup (slots T) -> NoDup (slots src) -> Forall works src ->
      (forall x t, In x src -> In t T -> join x t = true -> Pre (subs t) (subs x)) ->
      scan (absorb H flags false) path i src T st = Ok (T', st', acts) ->
      exists info,
        T' = map (f1 src info) T /\ acts_ok T i src acts /\
        snd st' = snd st ++ gathered T src info /\ (fst st <= fst st')%N /\
        (forall x t, In x src -> In t T -> join x t = true ->
           Post (path ++ [seg_of (step_of x)]) (subs t) (subs x) (info (slot_of x))).
    Proof.
      induction src as [|x src IH]; intros i path T st T' st' acts ND NS W Pr E; cbn [scan] in E.
      - injection E as <- <- <-. exists (fun _ => mkjoined [] (fun _ => None) (fun _ => None) []).
        split; [|split; [constructor|split; [cbn; now rewrite app_nil_r|split; [lia|intros x t []]]]].
        rewrite <- (map_id T) at 1. apply map_ext. reflexivity.
      - inversion W as [|? ? Wx W']; subst.
        assert (NS' : NoDup (slots src)).
        { unfold slots in NS |- *. cbn [flat_map] in NS. destruct (slot_of x); [now inversion NS|exact NS]. }
        assert (Apart : forall x', In x' src -> same x x' = false).
        { intros x' I. apply (slots_split [] x src NS). exact I. }
        assert (Stay : forall d, (forall t, In t T -> join x t = false) -> fate T i x d ->
          forall acts', bind (scan (absorb H flags false) path (S i) src T st)
               (fun '(tgt2, st2, acts) => Ok (tgt2, st2, todo x d ++ acts)) = Ok (T', st', acts') ->
          exists info,
            T' = map (f1 (x :: src) info) T /\ acts_ok T i (x :: src) acts' /\
            snd st' = snd st ++ gathered T (x :: src) info /\ (fst st <= fst st')%N /\
            (forall x0 t, In x0 (x :: src) -> In t T -> join x0 t = true ->
               Post (path ++ [seg_of (step_of x0)]) (subs t) (subs x0) (info (slot_of x0)))).
        { intros d NJ F acts' E'. destruct (scan _ _ _ _ _ _) as [[[T2 st2] a2]| |] eqn:Sc; cbn [bind] in E'; try discriminate E'.
          injection E' as <- <- <-.
          destruct (IH (S i) path T st T2 st2 a2 ND NS' W') as (info & -> & Ac & Rs & Le & Ps); auto.
          { intros x0 t I It J. apply Pr; auto. right. auto. }
          exists info. split; [|split; [constructor; auto|split; [|split; [exact Le|]]]].
          - apply map_ext_in. intros t I. unfold f1. cbn [existsb]. now rewrite (NJ t I).
          - rewrite Rs. unfold gathered. cbn [flat_map].
            assert (existsb (join x) T = false) as ->; [|reflexivity].
            destruct (existsb (join x) T) eqn:Ex; [|auto]. apply existsb_exists in Ex as (t & I & J).
            rewrite NJ in J; auto.
          - intros x0 t [<-|I] It J; [rewrite NJ in J; [discriminate|auto]|]. apply Ps; auto. }
        destruct (existsb (same x) T) eqn:Ex.
        + apply existsb_exists in Ex as (t & It & Sa). apply in_split in It as (l1 & l2 & ->).
          destruct (agree x t) eqn:Ag.
          * rewrite absorb_joined in E by auto.
            destruct (merge (path ++ [seg_of (step_of x)]) (subs t) (subs x) st) as [[r st1]| |] eqn:M; cbn [bind] in E; try discriminate E.
            destruct (scan _ _ _ _ _ _) as [[[T2 st2] a2]| |] eqn:Sc; cbn [bind] in E; try discriminate E.
            injection E as <- <- <-.
            assert (Jt : join x t = true) by (unfold join; now rewrite Sa, Ag).
            assert (It : In t (l1 ++ t :: l2)) by (apply in_or_app; right; left; auto).
            destruct (Wx _ _ _ _ _ (Pr x t (or_introl eq_refl) It Jt) M) as (jn & Jr & Js & Jl & Jp).
            assert (Sl : slots (l1 ++ with_subs t r :: l2) = slots (l1 ++ t :: l2)).
            { rewrite !slots_app. unfold slots. cbn [flat_map]. now rewrite slot_with. }
            assert (Off : forall x' y, In x' src -> same x' y = true -> same x y = false).
            { intros x' y I E. destruct (same x y) eqn:F; [|auto]. rewrite same_sym in E.
              pose proof (same_trans _ _ _ F E) as G. rewrite Apart in G; auto. }
            destruct (IH (S i) path (l1 ++ with_subs t r :: l2) st1 T2 st2 a2) as (info & -> & Ac & Rs & Le & Ps); auto.
            { now rewrite Sl. }
            { intros x0 t0 I0 It0 J0. apply in_app_or in It0 as [It0|[<-|It0]].
              - apply Pr; auto; [right; auto|apply in_or_app; auto].
              - exfalso. rewrite join_with in J0. apply join_same in J0. pose proof (Off x0 t I0 J0). congruence.
              - apply Pr; auto; [right; auto|apply in_or_app; right; right; auto]. }
            exists (fun s => if slot_opt_dec s (slot_of x) then jn else info s).
            assert (Oth : forall y, In y (l1 ++ l2) -> same x y = false).
            { intros y I. destruct (same x y) eqn:F; [|auto]. rewrite same_sym in Sa.
              pose proof (same_trans _ _ _ Sa F) as G. rewrite (slots_split _ _ _ ND) in G; auto. }
            assert (Diff : forall x', In x' src -> slot_of x' <> None -> slot_of x' <> slot_of x).
            { intros x' I Nn E. assert (same x x' = true) as F.
              { apply same_ok. destruct (slot_of x') as [s|]; [|congruence]. exists s. auto. }
              rewrite Apart in F; auto. discriminate. }
            assert (Slot : forall x y, same x y = true -> slot_of x <> None).
            { intros a b E. apply same_ok in E as (s & -> & _). discriminate. }
            assert (Eq : forall y, In y (l1 ++ l2) ->
              f1 src info y = f1 (x :: src) (fun s => if slot_opt_dec s (slot_of x) then jn else info s) y).
            { intros y I. unfold f1. cbn [existsb]. unfold join at 2. rewrite (Oth y I). cbn [andb orb].
              destruct (existsb _ src) eqn:Exy; [|auto]. apply existsb_exists in Exy as (x' & I' & J').
              apply join_same in J'. destruct (slot_opt_dec (slot_of y) (slot_of x)) as [E|_]; [|auto].
              exfalso. apply (Diff x' I'); [eapply Slot; eauto|]. rewrite <- E. now apply same_slot. }
            split; [|split; [|split; [|split]]].
            -- rewrite !map_app. cbn [map]. f_equal; [apply map_ext_in; intros; apply Eq, in_or_app; auto|].
               f_equal; [|apply map_ext_in; intros; apply Eq, in_or_app; auto].
               unfold f1. cbn [existsb]. rewrite Jt. cbn [orb].
               assert (existsb (fun x0 => join x0 (with_subs t r)) src = false) as ->.
               { destruct (existsb _ src) eqn:Exy; [|auto]. apply existsb_exists in Exy as (x' & I' & J').
                 rewrite join_with in J'. apply join_same in J'. pose proof (Off x' t I' J'). congruence. }
               destruct (slot_opt_dec (slot_of t) (slot_of x)) as [_|Ne]; [now rewrite Jr|].
               exfalso. apply Ne. symmetry. now apply same_slot.
            -- apply (acts_cons _ i x src Merged a2); [cbn; eauto|]. eapply acts_back; eauto.
            -- rewrite Rs, Js, <- app_assoc. f_equal. unfold gathered. cbn [flat_map].
               assert (existsb (join x) (l1 ++ t :: l2) = true) as ->.
               { apply existsb_exists. eauto. }
               destruct (slot_opt_dec (slot_of x) (slot_of x)) as [_|]; [|congruence]. f_equal.
               clear - Diff Slot. induction src as [|x' src IHs]; [auto|]. cbn [flat_map].
               rewrite existsb_swap, IHs by (intros; apply Diff; auto; right; auto). f_equal.
               destruct (existsb (join x') (l1 ++ t :: l2)) eqn:Ex; [|auto].
               apply existsb_exists in Ex as (y & Iy & J). apply join_same in J.
               destruct (slot_opt_dec (slot_of x') (slot_of x)) as [E|_]; [|auto].
               exfalso. apply (Diff x'); [left; auto|eapply Slot; eauto|auto].
            -- lia.
            -- intros x0 t0 [<-|I0] It0 J0.
               ++ destruct (slot_opt_dec (slot_of x) (slot_of x)) as [_|]; [|congruence].
                  assert (t0 = t) as ->; [|exact Jp].
                  apply (slots_one (l1 ++ t :: l2)); auto.
                  apply join_same in J0. rewrite same_sym in J0. eapply same_trans; eauto.
               ++ destruct (slot_opt_dec (slot_of x0) (slot_of x)) as [E|_].
                  { exfalso. apply (Diff x0 I0); auto. eapply Slot, join_same; eauto. }
                  apply in_app_or in It0 as [It0|[<-|It0]].
                  ** apply Ps; auto. apply in_or_app; auto.
                  ** exfalso. apply join_same in J0. pose proof (Off x0 t I0 J0). congruence.
                  ** apply Ps; auto. apply in_or_app; right; right; auto.
          * rewrite absorb_clashed in E by auto.
            destruct (side flags i (length l1)) as [p| |] eqn:Si; cbn [bind] in E; try discriminate E.
            apply (Stay (Conflict p)); auto.
            -- intros t0 It0. destruct (join x t0) eqn:J; [|auto]. exfalso.
               assert (t0 = t) as ->.
               { apply (slots_one (l1 ++ t :: l2)); auto; [apply in_or_app; right; left; auto|].
                 apply join_same in J. rewrite same_sym in J. eapply same_trans; eauto. }
               unfold join in J. rewrite Ag, andb_false_r in J. discriminate.
            -- exists (length l1), t. split; [rewrite nth_error_app2, Nat.sub_diag by lia; auto|split; [|auto]].
               unfold clash. now rewrite Sa, Ag.
        + assert (NSa : forall t, In t T -> same x t = false).
          { intros t I. destruct (same x t) eqn:F; [|auto]. rewrite <- Ex. symmetry. apply existsb_exists. eauto. }
          rewrite absorb_copied in E by auto. cbn [bind] in E.
          apply (Stay Copied); auto. intros t I. unfold join. now rewrite NSa.
    Qed.
  End Scan.

  (** ** Second half *)
  Definition tmode : bool := match flags with (true, false) => true | _ => false end.

  Definition rename (x : sel) (al : string) : sel :=
    match x with
    | SField n _ args inc skip o sub => SField n (Some al) args inc skip o sub
    | x => x
    end.

  Definition f2 (src : list sel) (al : option slot -> string) (t : sel) : sel :=
    if tmode && existsb (fun x => clash x t) src then rename t (al (slot_of t)) else t.
  Definition added (tgt : list sel) (al : option slot -> string) (x : sel) : list sel :=
    if existsb (join x) tgt then []
    else if negb tmode && existsb (clash x) tgt then [rename x (al (slot_of x))] else [x].
  Definition told (path : list seg) (tgt : list sel) (al : option slot -> string) (x : sel) : records :=
    match find (clash x) tgt with
    | Some t => [(path ++ [seg_of (step_of (if tmode then t else x))], al (slot_of x))]
    | None => []
    end.

  Definition keys_free (al : string) (tgt : list sel) : Prop :=
    forall t k inc skip, In t tgt -> slot_of t = Some (FieldAt k inc skip) -> al <> k.

  Lemma used_keys al l : ~ In al (used l) -> keys_free al l.
  Proof.
    intros F t k inc skip I E ->. apply F. unfold used. apply in_flat_map. exists t. split; auto.
    destruct t as [n [a|] args i s o sub|tc i s sub|n]; cbn in E; try discriminate; injection E as <- <- <-; cbn; auto.
  Qed.

  Lemma set_nth_app l1 t l2 u : set_nth (length l1) u (l1 ++ t :: l2) = l1 ++ u :: l2.
  Proof. induction l1 as [|y l1 IH]; cbn; [auto|]. now rewrite IH. Qed.

  Lemma clash_fields x t : clash x t = true ->
    exists n a args inc skip o sub n' a' args' o' sub',
      x = SField n a args inc skip o sub /\ t = SField n' a' args' inc skip o' sub' /\
      response_name n a = response_name n' a'.
  Proof.
    intros C. apply andb_true_iff in C as [Sa Ag]. apply same_ok in Sa as (s & E & E').
    destruct x as [n a args inc skip o sub|tc inc skip sub|n], t as [n' a' args' inc' skip' o' sub'|tc' inc' skip' sub'|n'];
      cbn in E, E'; try congruence; try (cbn in Ag; discriminate Ag).
    injection E as <-. injection E' as E1 -> ->. do 12 eexists. repeat split; eauto.
  Qed.

  Definition plainly (x : sel) : Prop :=
    forall k inc skip, slot_of x = Some (FieldAt k inc skip) -> ~ reserved k.

  Lemma settle_ok full path src : forall pre acts A B st R st',
    full = pre ++ src -> acts_ok A (length pre) src acts ->
    NoDup (slots A) -> NoDup (slots src) -> Forall plainly src ->
    settle H false full path acts (A ++ B) st = Ok (R, st') ->
    exists al,
      R = map (f2 src al) A ++ B ++ flat_map (added A al) src /\
      snd st' = snd st ++ flat_map (told path A al) src /\
      (fst st <= fst st')%N /\
      (forall x t, In x src -> In t A -> clash x t = true ->
         exists d, al (slot_of x) = alias_name d /\ (fst st <= d < fst st')%N /\
                   keys_free (alias_name d) A) /\
      (forall x x', In x src -> In x' src -> existsb (clash x) A = true -> existsb (clash x') A = true ->
         al (slot_of x) = al (slot_of x') -> slot_of x = slot_of x').
  Proof.
    induction src as [|x src IH]; intros pre acts A B st R st' Fu Ac NA NS Pl E.
    - inversion Ac; subst. cbn [settle] in E. injection E as <- <-. exists (fun _ => EmptyString).
      split; [|split; [cbn; now rewrite app_nil_r|split; [lia|split; [intros ? ? []|intros ? ? []]]]].
      cbn. rewrite app_nil_r. f_equal. rewrite <- (map_id A) at 1. apply map_ext. intros t. unfold f2. cbn.
      now rewrite andb_false_r.
    - inversion Ac as [|i x0 src0 d acts0 Fa Ac0]; subst.
      inversion Pl as [|? ? Plx Pl']; subst.
      assert (NS' : NoDup (slots src)).
      { unfold slots in NS |- *. cbn [flat_map] in NS. destruct (slot_of x); [now inversion NS|exact NS]. }
      assert (Apart : forall x', In x' src -> same x x' = false).
      { intros x' I. apply (slots_split [] x src NS). exact I. }
      assert (Fu' : pre ++ x :: src = (pre ++ [x]) ++ src) by now rewrite <- app_assoc.
      assert (Ln : S (length pre) = length (pre ++ [x])) by (rewrite app_length; cbn; lia).
      rewrite Ln in Ac0.
      destruct d as [|p|]; cbn [todo List.app settle fate] in *.
      + (* merged *)
        destruct Fa as (t & It & J).
        destruct (IH (pre ++ [x]) acts0 A B st R st') as (al & -> & Rs & Le & Al & Inj); auto.
        assert (NC : forall y, In y A -> clash x y = false).
        { intros y I. destruct (clash x y) eqn:C; [|auto]. exfalso.
          assert (y = t) as ->.
          { apply (slots_one A); auto. apply clash_same in C. apply join_same in J. rewrite same_sym in C. eapply same_trans; eauto. }
          unfold clash, join in *. destruct (agree x t); [now rewrite andb_false_r in C|now rewrite andb_false_r in J]. }
        assert (NE : existsb (clash x) A = false).
        { destruct (existsb (clash x) A) eqn:Ex; [|auto]. apply existsb_exists in Ex as (y & I & C). rewrite NC in C; auto. }
        exists al. split; [|split; [|split; [exact Le|split]]].
        * f_equal; [|f_equal].
          -- apply map_ext_in. intros y I. unfold f2. cbn [existsb]. now rewrite NC.
          -- cbn [flat_map]. unfold added at 2.
             assert (existsb (join x) A = true) as -> by (apply existsb_exists; eauto). reflexivity.
        * rewrite Rs. cbn [flat_map]. unfold told at 2.
          destruct (find (clash x) A) as [y|] eqn:Fi; [|reflexivity].
          apply find_some in Fi as (I & C). rewrite NC in C; [discriminate|auto].
        * intros x0 t0 [<-|I] It0 C; [rewrite NC in C; [discriminate|auto]|]. apply (Al x0 t0); auto.
        * intros x0 x0' [<-|I] [<-|I'] C C'; auto; congruence.
      + (* a conflict *)
        destruct Fa as (j & t & Nt & C & Si).
        pose proof (nth_error_In _ _ Nt) as It.
        assert (Only : forall y, In y A -> same x y = true -> y = t).
        { intros y I F. apply (slots_one A); auto. apply clash_same in C. rewrite same_sym in F. eapply same_trans; eauto. }
        assert (NJ : existsb (join x) A = false).
        { destruct (existsb (join x) A) eqn:Ex; [|auto]. apply existsb_exists in Ex as (y & I & J).
          rewrite (Only y I (join_same _ _ J)) in J. unfold clash, join in *.
          destruct (agree x t); [now rewrite andb_false_r in C|now rewrite andb_false_r in J]. }
        assert (CE : existsb (clash x) A = true) by (apply existsb_exists; eauto).
        assert (Fi : find (clash x) A = Some t).
        { destruct (find (clash x) A) as [y|] eqn:Fi.
          - apply find_some in Fi as (I & C'). f_equal. apply Only; auto. now apply clash_same.
          - pose proof (find_none _ _ Fi t It). congruence. }
        assert (Off : forall x' y, In x' src -> same x' y = true -> same x y = false).
        { intros x' y I F. destruct (same x y) eqn:G; [|auto]. rewrite same_sym in F.
          pose proof (same_trans _ _ _ G F) as K. rewrite Apart in K; auto. }
        assert (Slot : forall a b, same a b = true -> slot_of a <> None).
        { intros a b F. apply same_ok in F as (s & -> & _). discriminate. }
        assert (Diff : forall x', In x' src -> slot_of x' <> None -> slot_of x' <> slot_of x).
        { intros x' I Nn F. assert (same x x' = true) as K.
          { apply same_ok. destruct (slot_of x') as [s|]; [|congruence]. exists s. auto. }
          rewrite Apart in K; auto. discriminate. }
        destruct (clash_fields _ _ C) as (n & a & args & inc & skip & o & sub & n' & a' & args' & o' & sub' & Ex & Et & Ek).
        destruct tmode eqn:Tm.
        * (* the target is renamed *)
          assert (p = AtTarget j) as ->.
          { unfold tmode in Tm. destruct flags as [[] []]; try discriminate Tm. cbn in Si. congruence. }
          cbn [settle List.app] in E. change (if false then x :: A ++ B else (A ++ B) ++ [x]) with ((A ++ B) ++ [x]) in E.
          destruct (fresh_ok (fst st) ((A ++ B) ++ [x])) as (dd & Fr & Le0 & Free). rewrite Fr in E. cbn [bind] in E.
          apply nth_error_split in Nt as (l1 & l2 & EA & El).
          assert (Nt' : nth_error ((A ++ B) ++ [x]) j = Some t).
          { rewrite EA, <- !app_assoc. rewrite nth_error_app2 by lia. replace (j - length l1) with 0 by lia. reflexivity. }
          rewrite Nt', Et in E.
          set (u := SField n' (Some (alias_name dd)) args' inc skip o' sub') in *.
          assert (Es : set_nth j u ((A ++ B) ++ [x]) = (l1 ++ u :: l2) ++ (B ++ [x])).
          { rewrite EA, <- !app_assoc. cbn [List.app]. rewrite <- El. now rewrite set_nth_app. }
          rewrite Es in E.
          assert (Su : slot_of u = Some (FieldAt (alias_name dd) inc skip)) by reflexivity.
          assert (Fu0 : forall y, In y A -> same u y = false).
          { intros y I. destruct (same u y) eqn:F; [|auto]. exfalso. apply same_ok in F as (s & F & F').
            rewrite Su in F. injection F as <-.
            eapply (used_keys _ _ Free y); [apply in_or_app; left; apply in_or_app; auto|exact F'|reflexivity]. }
          assert (Xu : forall x', In x' src -> same x' u = false).
          { intros x' I. destruct (same x' u) eqn:F; [|auto]. exfalso. apply same_ok in F as (s & F & F').
            rewrite Su in F'. injection F' as <-. rewrite Forall_forall in Pl'. apply (Pl' x' I _ _ _ F), alias_reserved. }
          assert (NA' : NoDup (slots (l1 ++ u :: l2))).
          { rewrite EA in NA. rewrite slots_app in NA |- *. cbn [slots flat_map] in NA |- *. unfold slots in NA |- *. cbn [flat_map] in NA |- *.
            rewrite Su. rewrite Et in NA. cbn [slot_of List.app] in NA |- *.
            apply NoDup_remove in NA as [NA _]. apply NoDup_Add with (a := FieldAt (alias_name dd) inc skip) (l := slots l1 ++ slots l2).
            - apply Add_app.
            - split; [exact NA|]. rewrite <- slots_app. intros I. apply slots_in in I as (y & I & F).
              assert (In y A) as IA. { rewrite EA. apply in_or_app. apply in_app_or in I as [I|I]; [left|right; right]; auto. }
              pose proof (Fu0 y IA) as K. assert (same u y = true); [|congruence]. apply same_ok. eauto. }
          assert (Ac' : acts_ok (l1 ++ u :: l2) (length (pre ++ [x])) src acts0).
          { clear E. assert (Fates : forall i x' d', In x' src -> fate A i x' d' -> fate (l1 ++ u :: l2) i x' d').
            { intros i x' d' I F. destruct d' as [|p'|]; cbn [fate] in F |- *.
              - destruct F as (y & Iy & J). exists y. split; auto. rewrite EA in Iy.
                apply in_app_or in Iy as [Iy|[<-|Iy]]; apply in_or_app; auto; [|right; right; auto].
                exfalso. apply join_same in J. pose proof (Off x' t I J). apply clash_same in C. congruence.
              - destruct F as (j' & y & Nj & Cy & Sy). exists j', y. split; auto. rewrite EA in Nj.
                apply nth_error_swap with (t := u) in Nj as [Nj|(_ & -> & _)]; auto.
                exfalso. apply clash_same in Cy. pose proof (Off x' t I Cy). apply clash_same in C. congruence.
              - intros y Iy. apply in_app_or in Iy as [Iy|[<-|Iy]].
                + apply F. rewrite EA. apply in_or_app. auto.
                + apply Xu; auto.
                + apply F. rewrite EA. apply in_or_app. right. right. auto. }
            clear - Ac0 Fates. revert Ac0. generalize (length (pre ++ [x])). intros i Ac0.
            induction Ac0; constructor; [apply Fates; auto; left; auto|]. apply IHAc0. intros. apply Fates; auto. right; auto. }
          destruct (IH (pre ++ [x]) acts0 (l1 ++ u :: l2) (B ++ [x]) _ R st' Fu' Ac' NA' NS' Pl' E)
            as (al & -> & Rs & Le & Al & Inj).
          cbn [fst snd] in Rs, Le, Al.
          assert (CW : forall x', In x' src -> forall y, In y (l1 ++ t :: l2) -> clash x' y = true -> In y (l1 ++ l2)).
          { intros x' I y Iy Cy. apply in_app_or in Iy as [Iy|[<-|Iy]]; try (apply in_or_app; auto).
            exfalso. apply clash_same in Cy. pose proof (Off x' t I Cy). apply clash_same in C. congruence. }
          assert (InA : forall y, In y (l1 ++ l2) -> In y A /\ In y (l1 ++ u :: l2)).
          { intros y I. rewrite EA. split; apply in_or_app; apply in_app_or in I as [I|I]; auto; right; right; auto. }
          assert (Ct : forall x', In x' src -> clash x' t = false).
          { intros x' I. destruct (clash x' t) eqn:F; [|auto]. exfalso. apply clash_same in F. pose proof (Off x' t I F). apply clash_same in C. congruence. }
          assert (Cu : forall x', In x' src -> clash x' u = false).
          { intros x' I. unfold clash. now rewrite Xu. }
          assert (Ju : forall x', In x' src -> join x' u = join x' t).
          { intros x' I. unfold join at 1. rewrite Xu by auto. destruct (join x' t) eqn:F; [|auto]. exfalso.
            apply join_same in F. pose proof (Off x' t I F). apply clash_same in C. congruence. }
          assert (EJ : forall x', In x' src -> existsb (join x') (l1 ++ u :: l2) = existsb (join x') A).
          { intros x' I. rewrite EA, !existsb_app. cbn. now rewrite Ju. }
          assert (EC : forall x', In x' src -> existsb (clash x') (l1 ++ u :: l2) = existsb (clash x') A).
          { intros x' I. rewrite EA, !existsb_app. cbn. now rewrite Cu, Ct. }
          exists (fun s => if slot_opt_dec s (slot_of x) then alias_name dd else al s).
          split; [|split; [|split; [lia|split]]].
          -- assert (Fe : forall y, In y (l1 ++ l2) -> f2 src al y = f2 (x :: src) (fun s => if slot_opt_dec s (slot_of x) then alias_name dd else al s) y).
             { intros y I. unfold f2. rewrite Tm. cbn [andb existsb].
               assert (clash x y = false) as ->.
               { destruct (clash x y) eqn:F; [|auto]. exfalso. apply clash_same in F.
                 rewrite EA in NA. pose proof (slots_split _ _ _ NA y I) as G.
                 assert (same t y = true); [|congruence]. apply clash_same in C. rewrite same_sym in C. eapply same_trans; eauto. }
               cbn [orb]. destruct (existsb (fun x0 => clash x0 y) src) eqn:Exy; [|auto].
               apply existsb_exists in Exy as (x' & I' & C'). apply clash_same in C'.
               destruct (slot_opt_dec (slot_of y) (slot_of x)) as [F|_]; [|auto].
               exfalso. apply (Diff x' I'); [eapply Slot; eauto|]. rewrite <- F. now apply same_slot. }
             rewrite <- !app_assoc. rewrite EA at 1.
             rewrite !map_app. cbn [map]. rewrite <- !app_assoc. f_equal; [apply map_ext_in; intros; apply Fe, in_or_app; auto|].
             cbn [List.app]. f_equal; [|f_equal; [apply map_ext_in; intros; apply Fe, in_or_app; auto|]].
             ++ unfold f2. rewrite Tm. cbn [andb existsb]. rewrite C. cbn [orb].
                destruct (slot_opt_dec (slot_of t) (slot_of x)) as [_|Ne]; [|exfalso; apply Ne; symmetry; now apply same_slot, clash_same].
                assert (existsb (fun x0 => clash x0 u) src = false) as ->; [|rewrite Et; reflexivity].
                destruct (existsb (fun x0 => clash x0 u) src) eqn:F; [|auto]. apply existsb_exists in F as (x' & I' & C'). rewrite Cu in C'; auto.
             ++ f_equal. cbn [flat_map]. unfold added at 2. rewrite NJ, Tm. cbn [negb andb List.app]. f_equal.
                apply flat_map_ext_in. intros x' I. unfold added. rewrite EJ, Tm by auto. cbn [negb andb]. reflexivity.
          -- rewrite Rs, <- app_assoc. f_equal. cbn [flat_map List.app]. unfold told at 2. rewrite Fi, Tm, Et.
             destruct (slot_opt_dec (slot_of x) (slot_of x)) as [_|]; [|congruence]. cbn [List.app step_of seg_of]. f_equal.
             apply flat_map_ext_in. intros x' I. unfold told. rewrite Tm.
             assert (find (clash x') (l1 ++ u :: l2) = find (clash x') A) as ->.
             { rewrite EA. clear - Cu Ct I. induction l1 as [|y l1 IHl]; cbn; [now rewrite Cu, Ct|]. now rewrite IHl. }
             destruct (find (clash x') A) as [y|] eqn:Fy; [|auto]. apply find_some in Fy as (_ & Cy). apply clash_same in Cy.
             destruct (slot_opt_dec (slot_of x') (slot_of x)) as [F|_]; [|auto]. exfalso. apply (Diff x'); auto. eapply Slot; eauto.
          -- intros x0 t0 [<-|I] It0 C0.
             ++ destruct (slot_opt_dec (slot_of x) (slot_of x)) as [_|]; [|congruence].
                exists dd. split; [auto|split; [lia|]]. apply used_keys. intros I. apply Free. unfold used in I |- *.
                rewrite !flat_map_app. apply in_or_app; left. apply in_or_app; left. exact I.
             ++ destruct (slot_opt_dec (slot_of x0) (slot_of x)) as [F|_]; [exfalso; apply (Diff x0 I); auto; eapply Slot, clash_same; eauto|].
                rewrite EA in It0. pose proof (CW x0 I t0 It0 C0) as I12.
                destruct (Al x0 t0 I (proj2 (InA _ I12)) C0) as (d & Ed & Bd & Kf). exists d. split; [auto|split; [lia|]].
                intros y k i0 s0 Iy Sy. rewrite EA in Iy. apply in_app_or in Iy as [Iy|[<-|Iy]].
                ** apply (Kf y k i0 s0); auto. apply in_or_app; auto.
                ** intros <-. rewrite Et in Sy. cbn in Sy. injection Sy as Sy <- <-.
                   apply (Plx (response_name n a) inc skip); [rewrite Ex; reflexivity|]. rewrite Ek, Sy. apply alias_reserved.
                ** apply (Kf y k i0 s0); auto. apply in_or_app; right; right; auto.
          -- intros x0 x0' I I' C0 C0'.
             assert (Late : forall z, In z src -> existsb (clash z) A = true ->
               exists d, al (slot_of z) = alias_name d /\ (dd < d)%N).
             { intros z Iz Cz. apply existsb_exists in Cz as (y & Iy & Cz). rewrite EA in Iy. pose proof (CW z Iz y Iy Cz) as I12.
               destruct (Al z y Iz (proj2 (InA _ I12)) Cz) as (d & Ed & Bd & _). exists d. split; auto. lia. }
             assert (Nz : forall z, In z src -> existsb (clash z) A = true -> slot_of z <> slot_of x).
             { intros z Iz Cz. apply Diff; auto. apply existsb_exists in Cz as (y & Iy & Cz). eapply Slot, clash_same; eauto. }
             destruct I as [<-|I], I' as [<-|I']; auto.
             ++ destruct (slot_opt_dec (slot_of x) (slot_of x)) as [_|]; [|congruence].
                destruct (slot_opt_dec (slot_of x0') (slot_of x)) as [F|_]; [exfalso; apply (Nz x0'); auto|].
                intros F. destruct (Late x0' I' C0') as (d & Ed & Ld). rewrite Ed in F. apply alias_name_inj in F. lia.
             ++ destruct (slot_opt_dec (slot_of x) (slot_of x)) as [_|]; [|congruence].
                destruct (slot_opt_dec (slot_of x0) (slot_of x)) as [F|_]; [exfalso; apply (Nz x0); auto|].
                intros F. destruct (Late x0 I C0) as (d & Ed & Ld). rewrite Ed in F. apply alias_name_inj in F. lia.
             ++ destruct (slot_opt_dec (slot_of x0) (slot_of x)) as [F|_]; [exfalso; apply (Nz x0); auto|].
                destruct (slot_opt_dec (slot_of x0') (slot_of x)) as [F'|_]; [exfalso; apply (Nz x0'); auto|].
                apply Inj; auto; rewrite EC; auto.
        * (* the source is renamed *)
          assert (p = AtSource (length pre)) as ->.
          { unfold tmode in Tm. destruct flags as [[] []]; try discriminate Tm; cbn in Si; congruence. }
          cbn [settle List.app] in E.
          destruct (fresh_ok (fst st) (A ++ B)) as (dd & Fr & Le0 & Free). rewrite Fr in E. cbn [bind] in E.
          assert (Nx : nth_error (pre ++ x :: src) (length pre) = Some x).
          { rewrite nth_error_app2, Nat.sub_diag by lia. reflexivity. }
          rewrite Nx, Ex in E. rewrite <- Ex in E.
          rewrite <- app_assoc in E.
          destruct (IH (pre ++ [x]) acts0 A _ _ R st' Fu' Ac0 NA NS' Pl' E) as (al & -> & Rs & Le & Al & Inj).
          cbn [fst snd] in Rs, Le, Al.
          exists (fun s => if slot_opt_dec s (slot_of x) then alias_name dd else al s).
          split; [|split; [|split; [lia|split]]].
          -- rewrite <- !app_assoc. f_equal; [|f_equal].
             ++ apply map_ext. intros y. unfold f2. rewrite Tm. reflexivity.
             ++ cbn [flat_map]. unfold added at 2. rewrite NJ, Tm, CE. cbn [negb andb].
                destruct (slot_opt_dec (slot_of x) (slot_of x)) as [_|]; [|congruence]. rewrite Ex at 1. cbn [rename List.app]. f_equal.
                apply flat_map_ext_in. intros x' I. unfold added. rewrite Tm. cbn [negb andb].
                destruct (existsb (clash x') A) eqn:Cx'; [|auto]. apply existsb_exists in Cx' as (y & Iy & Cy).
                destruct (slot_opt_dec (slot_of x') (slot_of x)) as [F|_]; [|auto]. exfalso. apply (Diff x' I); auto. eapply Slot, clash_same; eauto.
          -- rewrite Rs, <- app_assoc. f_equal. cbn [flat_map List.app]. unfold told at 2. rewrite Fi, Tm.
             destruct (slot_opt_dec (slot_of x) (slot_of x)) as [_|]; [|congruence]. rewrite Ex at 1. cbn [List.app step_of seg_of]. f_equal.
             apply flat_map_ext_in. intros x' I. unfold told. rewrite Tm.
             destruct (find (clash x') A) as [y|] eqn:Fy; [|auto]. apply find_some in Fy as (_ & Cy). apply clash_same in Cy.
             destruct (slot_opt_dec (slot_of x') (slot_of x)) as [F|_]; [|auto]. exfalso. apply (Diff x'); auto. eapply Slot; eauto.
          -- intros x0 t0 [<-|I] It0 C0.
             ++ destruct (slot_opt_dec (slot_of x) (slot_of x)) as [_|]; [|congruence].
                exists dd. split; [auto|split; [lia|]]. apply used_keys. intros I. apply Free. unfold used in I |- *.
                rewrite !flat_map_app. apply in_or_app; left. exact I.
             ++ destruct (slot_opt_dec (slot_of x0) (slot_of x)) as [F|_]; [exfalso; apply (Diff x0 I); auto; eapply Slot, clash_same; eauto|].
                destruct (Al x0 t0 I It0 C0) as (d & Ed & Bd & Kf). exists d. split; [auto|split; [lia|auto]].
          -- intros x0 x0' I I' C0 C0'.
             assert (Late : forall z, In z src -> existsb (clash z) A = true ->
               exists d, al (slot_of z) = alias_name d /\ (dd < d)%N).
             { intros z Iz Cz. apply existsb_exists in Cz as (y & Iy & Cz).
               destruct (Al z y Iz Iy Cz) as (d & Ed & Bd & _). exists d. split; auto. lia. }
             assert (Nz : forall z, In z src -> existsb (clash z) A = true -> slot_of z <> slot_of x).
             { intros z Iz Cz. apply Diff; auto. apply existsb_exists in Cz as (y & Iy & Cz). eapply Slot, clash_same; eauto. }
             destruct I as [<-|I], I' as [<-|I']; auto.
             ++ destruct (slot_opt_dec (slot_of x) (slot_of x)) as [_|]; [|congruence].
                destruct (slot_opt_dec (slot_of x0') (slot_of x)) as [F|_]; [exfalso; apply (Nz x0'); auto|].
                intros F. destruct (Late x0' I' C0') as (d & Ed & Ld). rewrite Ed in F. apply alias_name_inj in F. lia.
             ++ destruct (slot_opt_dec (slot_of x) (slot_of x)) as [_|]; [|congruence].
                destruct (slot_opt_dec (slot_of x0) (slot_of x)) as [F|_]; [exfalso; apply (Nz x0); auto|].
                intros F. destruct (Late x0 I C0) as (d & Ed & Ld). rewrite Ed in F. apply alias_name_inj in F. lia.
             ++ destruct (slot_opt_dec (slot_of x0) (slot_of x)) as [F|_]; [exfalso; apply (Nz x0); auto|].
                destruct (slot_opt_dec (slot_of x0') (slot_of x)) as [F'|_]; [exfalso; apply (Nz x0'); auto|].
                apply Inj; auto.
      + (* copied *)
        change (if false then x :: A ++ B else (A ++ B) ++ [x]) with ((A ++ B) ++ [x]) in E.
        rewrite <- app_assoc in E.
        destruct (IH (pre ++ [x]) acts0 A (B ++ [x]) st R st') as (al & -> & Rs & Le & Al & Inj); auto.
        assert (NC : forall y, In y A -> clash x y = false) by (intros y I; unfold clash; now rewrite Fa).
        assert (NE : existsb (clash x) A = false).
        { destruct (existsb (clash x) A) eqn:Ex; [|auto]. apply existsb_exists in Ex as (y & I & C). rewrite NC in C; auto. }
        assert (NJ : existsb (join x) A = false).
        { destruct (existsb (join x) A) eqn:Ex; [|auto]. apply existsb_exists in Ex as (y & I & C). unfold join in C. rewrite Fa in C; auto. }
        exists al. split; [|split; [|split; [exact Le|split]]].
        * f_equal; [|rewrite <- app_assoc; f_equal].
          -- apply map_ext_in. intros y I. unfold f2. cbn [existsb]. now rewrite NC.
          -- cbn [flat_map]. unfold added at 2. rewrite NJ, NE, andb_false_r. reflexivity.
        * rewrite Rs. cbn [flat_map]. unfold told at 2.
          destruct (find (clash x) A) as [y|] eqn:Fi; [|reflexivity].
          apply find_some in Fi as (I & C). rewrite NC in C; [discriminate|auto].
        * intros x0 t0 [<-|I] It0 C; [rewrite NC in C; [discriminate|auto]|]. apply (Al x0 t0); auto.
        * intros x0 x0' [<-|I] [<-|I'] C C'; auto; congruence.
  Qed.
End Halves.
