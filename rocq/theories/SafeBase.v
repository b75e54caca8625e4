(** One level of the merge. *)
From Coq Require Import String Ascii List NArith ZArith Bool Arith Lia Decimal DecimalString DecimalN.
From Verif Require Import Ast QplanModel BestModel BestTree SafeModel SafeSpec.
Import ListNotations.
Local Open Scope list_scope.

(** ** Names *)
Lemma uint_string_inj a b :
  NilEmpty.string_of_uint a = NilEmpty.string_of_uint b -> a = b.
Proof.
  intros E. pose proof (NilEmpty.usu a) as A. pose proof (NilEmpty.usu b) as B.
  rewrite E in A. rewrite A in B. congruence.
Qed.

Lemma string_app_inj s a b : (s ++ a = s ++ b)%string -> a = b.
Proof. induction s; cbn; [auto|]. intros E. injection E. auto. Qed.

Lemma alias_name_inj c d : alias_name c = alias_name d -> c = d.
Proof.
  unfold alias_name. intros E. apply string_app_inj in E. apply uint_string_inj in E.
  now apply DecimalN.Unsigned.to_uint_inj.
Qed.

Lemma prefix_app s a : String.prefix s (s ++ a) = true.
Proof.
  induction s as [|c s IH]; cbn; [now destruct a|].
  destruct (ascii_dec c c); [exact IH|congruence].
Qed.

Lemma alias_reserved c : reserved (alias_name c).
Proof. apply prefix_app. Qed.

(** The names that a list of items uses. *)
Definition used (l : list sel) : list string :=
  flat_map (fun x => match x with
                     | SField n a _ _ _ _ _ => n :: match a with Some a => [a] | None => [] end
                     | _ => []
                     end) l.

Lemma uses_in al l : existsb (uses_name al) l = true <-> In al (used l).
Proof.
  rewrite existsb_exists. unfold used. rewrite in_flat_map. split; intros (x & I & U); exists x; split; auto;
    destruct x as [n a args inc skip o sub|tc inc skip sub|n]; cbn in U |- *; try contradiction; try discriminate.
  - apply orb_true_iff in U as [U|U]; [left; now apply String.eqb_eq|].
    destruct a as [a|]; cbn in U; [|discriminate]. apply String.eqb_eq in U. right. left. auto.
  - apply orb_true_iff. destruct U as [U|U]; [left; now apply String.eqb_eq|right].
    destruct a as [a|]; [|contradiction]. destruct U as [U|[]]. cbn. now apply String.eqb_eq.
Qed.

Lemma used_length l : length (used l) <= 2 * length l.
Proof.
  unfold used. induction l as [|x l IH]; [cbn; lia|]. cbn [flat_map length]. rewrite app_length.
  destruct x as [n [a|] args inc skip o sub|tc inc skip sub|n]; cbn [length]; lia.
Qed.

Lemma next_alias_ok fuel : forall c l,
  match next_alias fuel c l with
  | Ok (al, c') => exists d, al = alias_name d /\ (c <= d)%N /\ c' = N.succ d /\ ~ In al (used l)
  | Panic => False
  | Stuck => forall k, (k < N.of_nat fuel)%N -> In (alias_name (c + k)) (used l)
  end.
Proof.
  induction fuel as [|fuel IH]; intros c l; cbn [next_alias].
  - intros k K. lia.
  - destruct (existsb (uses_name (alias_name c)) l) eqn:E.
    + apply uses_in in E. specialize (IH (N.succ c) l). destruct (next_alias fuel (N.succ c) l) as [[al c']| |].
      * destruct IH as (d & -> & Le & -> & F). exists d. repeat split; auto. lia.
      * exact IH.
      * intros k K. destruct (N.eq_dec k 0) as [->|Nz]; [now rewrite N.add_0_r|].
        replace (c + k)%N with (N.succ c + (N.pred k))%N by lia. apply IH. lia.
    + exists c. repeat split; try lia. intros I. apply uses_in in I. congruence.
Qed.

Lemma fresh_ok c l :
  exists d, fresh_alias c l = Ok (alias_name d, N.succ d) /\ (c <= d)%N /\ ~ In (alias_name d) (used l).
Proof.
  unfold fresh_alias. pose proof (next_alias_ok (S (2 * length l)) c l) as N.
  destruct (next_alias (S (2 * length l)) c l) as [[al c']| |].
  - destruct N as (d & -> & Le & -> & F). exists d. auto.
  - contradiction.
  - exfalso.
    set (names := map (fun i => alias_name (c + N.of_nat i)) (seq 0 (S (2 * length l)))).
    assert (ND : NoDup names).
    { apply FinFun.Injective_map_NoDup; [|apply seq_NoDup]. intros i j E. apply alias_name_inj in E. lia. }
    assert (incl names (used l)) as Inc.
    { intros s Is. apply in_map_iff in Is as (i & <- & Ii). apply in_seq in Ii. apply N. lia. }
    pose proof (NoDup_incl_length ND Inc) as Len. unfold names in Len. rewrite map_length, seq_length in Len.
    pose proof (used_length l). lia.
Qed.

(** ** Slots *)
Definition slot_eq_dec (a b : slot) : {a = b} + {a <> b}.
Proof. repeat decide equality. Defined.

Definition same (x t : sel) : bool :=
  match slot_of x, slot_of t with
  | Some a, Some b => if slot_eq_dec a b then true else false
  | _, _ => false
  end.

Lemma same_ok x t : same x t = true <-> exists s, slot_of x = Some s /\ slot_of t = Some s.
Proof.
  unfold same. destruct (slot_of x) as [a|], (slot_of t) as [b|]; try (split; [discriminate|intros (? & ? & ?); discriminate]).
  destruct (slot_eq_dec a b) as [->|Ne]; split; try discriminate; eauto.
  intros (s & E & E'). congruence.
Qed.

Lemma same_sym x t : same x t = same t x.
Proof.
  destruct (same x t) eqn:A, (same t x) eqn:B; auto.
  - apply same_ok in A as (s & E & E'). rewrite <- B. symmetry. apply same_ok. eauto.
  - apply same_ok in B as (s & E & E'). rewrite <- A. apply same_ok. eauto.
Qed.

Lemma same_trans x y z : same x y = true -> same y z = true -> same x z = true.
Proof.
  intros A B. apply same_ok in A as (s & E & E'), B as (s' & F & F'). apply same_ok. exists s. split; congruence.
Qed.

Lemma slots_in l s : In s (slots l) <-> exists x, In x l /\ slot_of x = Some s.
Proof.
  unfold slots. rewrite in_flat_map. split; intros (x & I & E); exists x; split; auto.
  - destruct (slot_of x); [destruct E as [->|[]]; auto|contradiction].
  - rewrite E. left. auto.
Qed.

Lemma slots_app a b : slots (a ++ b) = slots a ++ slots b.
Proof. apply flat_map_app. Qed.

Lemma slots_split l1 t l2 :
  NoDup (slots (l1 ++ t :: l2)) -> forall y, In y (l1 ++ l2) -> same t y = false.
Proof.
  intros ND y I. destruct (same t y) eqn:E; [|auto]. exfalso.
  apply same_ok in E as (s & E & E'). rewrite slots_app in ND. cbn in ND. rewrite E in ND. cbn in ND.
  apply NoDup_remove_2 in ND. apply ND. rewrite <- slots_app. apply slots_in. eauto.
Qed.

Lemma slots_one l x y : NoDup (slots l) -> In x l -> In y l -> same x y = true -> x = y.
Proof.
  intros ND I J E. apply in_split in I as (l1 & l2 & ->).
  apply in_app_or in J as [J|[J|J]]; auto;
    exfalso; rewrite (slots_split _ _ _ ND) in E; try discriminate; apply in_or_app; auto.
Qed.

(** ** The loop over the target *)
Section Level.
  Variable H : list write -> N.
  Variable flags : bool * bool.
  Notation ahash := (arguments_hash H).

  Definition agree (x t : sel) : bool :=
    match x, t with
    | SField _ a args _ _ _ _, SField _ a' args' _ _ _ _ =>
        N.eqb (ahash args) (ahash args') && option_eqb String.eqb a a'
    | _, _ => true
    end.

  Definition with_subs (t : sel) (l : list sel) : sel :=
    match t with
    | SField n a args inc skip o _ => SField n a args inc skip o l
    | SFrag tc inc skip _ => SFrag tc inc skip l
    | SSpread n => SSpread n
    end.

  Definition seg_of (s : step) : seg :=
    match s with
    | OnField _ n args inc skip => field_seg H n args inc skip
    | OnType tc inc skip => GType [tc] (cond_of inc skip)
    | OnSpread _ => GItems
    end.

  Section Each.
    Variable as_first : bool.
    Notation merge := (merge_with H as_first (absorb H flags as_first)).

    Definition meet (x : sel) (path : list seg) (t : sel) (st : state) : meeting :=
      if same x t
      then if agree x t
           then Joins (bind (merge (path ++ [seg_of (step_of x)]) (subs t) (subs x) st)
                            (fun '(r, st') => Ok (with_subs t r, st')))
           else Clashes
      else Passes.

    Lemma each_ext m m' i : (forall t st, m t st = m' t st) ->
      forall tgt j st d, each flags m i j tgt st d = each flags m' i j tgt st d.
    Proof.
      intros E. induction tgt as [|t tgt IH]; intros j st d; cbn [each]; [auto|].
      rewrite E. destruct (m' t st); [now rewrite IH| |auto].
      destruct (side flags i j); cbn [bind]; auto. now rewrite IH.
    Qed.

    Lemma option_eqb_some a b : option_eqb String.eqb a b = true <-> a = b.
    Proof. apply option_eqb_ok, String.eqb_eq. Qed.

    Lemma field_same k inc skip k' inc' skip' :
      String.eqb k k' && option_eqb String.eqb inc inc' && option_eqb String.eqb skip skip'
      = if slot_eq_dec (FieldAt k inc skip) (FieldAt k' inc' skip') then true else false.
    Proof.
      destruct (slot_eq_dec _ _) as [E|Ne].
      - injection E as -> -> ->. rewrite String.eqb_refl, !(proj2 (option_eqb_some _ _) eq_refl). auto.
      - destruct (_ && _) eqn:E; [|auto]. exfalso. apply Ne.
        apply andb_true_iff in E as [E C]. apply andb_true_iff in E as [A B].
        apply String.eqb_eq in A. apply option_eqb_some in B, C. congruence.
    Qed.
    Lemma frag_same k inc skip k' inc' skip' :
      String.eqb k k' && option_eqb String.eqb inc inc' && option_eqb String.eqb skip skip'
      = if slot_eq_dec (TypeAt k inc skip) (TypeAt k' inc' skip') then true else false.
    Proof.
      destruct (slot_eq_dec _ _) as [E|Ne].
      - injection E as -> -> ->. rewrite String.eqb_refl, !(proj2 (option_eqb_some _ _) eq_refl). auto.
      - destruct (_ && _) eqn:E; [|auto]. exfalso. apply Ne.
        apply andb_true_iff in E as [E C]. apply andb_true_iff in E as [A B].
        apply String.eqb_eq in A. apply option_eqb_some in B, C. congruence.
    Qed.

    Lemma each_none m i tgt : (forall t st, In t tgt -> m t st = Passes) ->
      forall j st d, each flags m i j tgt st d = Ok (tgt, st, d).
    Proof.
      induction tgt as [|t tgt IH]; intros P j st d; cbn [each]; [auto|].
      rewrite P by (left; auto). rewrite IH; [auto|]. intros. apply P. right. auto.
    Qed.

    Lemma absorb_eq x i path tgt st :
      absorb H flags as_first x i path tgt st = each flags (meet x path) i 0 tgt st Copied.
    Proof.
      destruct x as [n a args inc skip o sub|tc inc skip sub|n].
      - cbn [absorb]. apply each_ext. intros [n' a' args' inc' skip' o' sub'|tc' inc' skip' sub'|n'] st'; try reflexivity.
        rewrite field_same. unfold meet, same, agree. cbn [slot_of step_of seg_of subs with_subs].
        change (response_name n a) with (identifier n a). change (response_name n' a') with (identifier n' a').
        destruct (slot_eq_dec _ _); reflexivity.
      - cbn [absorb]. apply each_ext. intros [n' a' args' inc' skip' o' sub'|tc' inc' skip' sub'|n'] st'; try reflexivity.
        rewrite frag_same. unfold meet, same, agree. cbn [slot_of step_of seg_of subs with_subs].
        destruct (slot_eq_dec _ _); reflexivity.
      - cbn [absorb]. symmetry. apply each_none. reflexivity.
    Qed.

    Lemma each_skip m i l1 : (forall t st, In t l1 -> m t st = Passes) ->
      forall j rest st d,
        each flags m i j (l1 ++ rest) st d =
        bind (each flags m i (j + length l1) rest st d) (fun '(r, st', d') => Ok (l1 ++ r, st', d')).
    Proof.
      induction l1 as [|t l1 IH]; intros P j rest st d; cbn [List.app List.length].
      - rewrite Nat.add_0_r. destruct (each _ _ _ _ _ _ _) as [[[? ?] ?]| |]; reflexivity.
      - cbn [each]. rewrite (P t st) by (left; auto). rewrite IH by (intros; apply P; right; auto).
        replace (j + S (length l1)) with (S j + length l1) by lia.
        destruct (each _ _ _ _ _ _ _) as [[[? ?] ?]| |]; reflexivity.
    Qed.

    (** The three fates of a source item. *)
    Lemma absorb_copied x i path tgt st :
      (forall t, In t tgt -> same x t = false) ->
      absorb H flags as_first x i path tgt st = Ok (tgt, st, Copied).
    Proof.
      intros P. rewrite absorb_eq. apply each_none. intros t st' I. unfold meet. now rewrite P.
    Qed.

    Lemma absorb_joined x i path l1 t l2 st :
      NoDup (slots (l1 ++ t :: l2)) -> same x t = true -> agree x t = true ->
      absorb H flags as_first x i path (l1 ++ t :: l2) st =
      bind (merge (path ++ [seg_of (step_of x)]) (subs t) (subs x) st)
           (fun '(r, st') => Ok (l1 ++ with_subs t r :: l2, st', Merged)).
    Proof.
      intros ND Sa Ag. rewrite absorb_eq, each_skip.
      - cbn [each]. unfold meet at 1. rewrite Sa, Ag. destruct (merge _ _ _ _) as [[r st']| |]; reflexivity.
      - intros y st' I. unfold meet. destruct (same x y) eqn:E; [|auto]. exfalso.
        rewrite same_sym in Sa. pose proof (same_trans _ _ _ Sa E) as F.
        rewrite (slots_split _ _ _ ND) in F; [discriminate|apply in_or_app; auto].
    Qed.

    Lemma absorb_clashed x i path l1 t l2 st :
      NoDup (slots (l1 ++ t :: l2)) -> same x t = true -> agree x t = false ->
      absorb H flags as_first x i path (l1 ++ t :: l2) st =
      bind (side flags i (length l1)) (fun p => Ok (l1 ++ t :: l2, st, Conflict p)).
    Proof.
      intros ND Sa Ag.
      assert (P : forall y st', In y (l1 ++ l2) -> meet x path y st' = Passes).
      { intros y st' I. unfold meet. destruct (same x y) eqn:E; [|auto]. exfalso.
        rewrite same_sym in Sa. pose proof (same_trans _ _ _ Sa E) as F.
        rewrite (slots_split _ _ _ ND) in F; [discriminate|auto]. }
      rewrite absorb_eq, each_skip by (intros; apply P, in_or_app; auto).
      cbn [each]. unfold meet at 1. rewrite Sa, Ag. cbn [Nat.add]. destruct (side flags i (length l1)) as [p| |]; cbn [bind]; auto.
      rewrite each_none by (intros; apply P, in_or_app; auto). reflexivity.
    Qed.
  End Each.
End Level.
