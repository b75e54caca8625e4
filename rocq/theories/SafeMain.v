(** What a merge with renaming does. *)
From Coq Require Import String List NArith Bool Arith Lia.
From Verif Require Import Ast QplanModel BestModel SafeModel SafeSpec SafeBase SafeScan.
Import ListNotations.
Local Open Scope list_scope.

(** ** Asking *)
Definition from (y : sel) (p : list step) : Prop :=
  exists q, p = step_of y :: q /\ (q = [] \/ asks (subs y) q).

Lemma asks_from l p : asks l p <-> exists y, In y l /\ from y p.
Proof.
  split.
  - intros A. inversion A as [? x I|? x q I A']; subst; exists x; split; auto; eexists; eauto.
  - intros (y & I & q & -> & [->|A]); [now constructor|now constructor 2].
Qed.

Lemma asks_nil l : ~ asks l [].
Proof. intros A. inversion A. Qed.

Lemma moved_ext p : forall rho rho', (forall q, q <> [] -> rho q = rho' q) -> moved rho p = moved rho' p.
Proof.
  induction p as [|s p IH]; intros rho rho' E; cbn [moved]; [auto|].
  rewrite E by discriminate. f_equal. apply IH. intros q _. apply E. discriminate.
Qed.

Lemma moved_none p : forall rho, (forall q, q <> [] -> rho q = None) -> moved rho p = p.
Proof.
  induction p as [|s p IH]; intros rho E; cbn [moved]; [auto|].
  rewrite E by discriminate. rewrite IH by (intros; apply E; discriminate). now destruct s.
Qed.

Definition slot_of_step (s : step) : option slot :=
  match s with
  | OnField k _ _ inc skip => Some (FieldAt k inc skip)
  | OnType tc inc skip => Some (TypeAt tc inc skip)
  | OnSpread _ => None
  end.
Lemma slot_step x : slot_of_step (step_of x) = slot_of x.
Proof. now destruct x. Qed.

Lemma nodup_slots_map (h : sel -> list sel) L :
  NoDup (slots L) -> (forall y, In y L -> length (h y) <= 1) ->
  (forall y y' r r' s, In y L -> In y' L -> In r (h y) -> In r' (h y') ->
     slot_of r = Some s -> slot_of r' = Some s -> slot_of y = slot_of y' /\ slot_of y <> None) ->
  NoDup (slots (flat_map h L)).
Proof.
  induction L as [|y L IH]; intros ND Ln Sep; [constructor|]. cbn [flat_map]. rewrite slots_app.
  assert (ND' : NoDup (slots L)).
  { unfold slots in ND |- *. cbn [flat_map] in ND. destruct (slot_of y); [now inversion ND|exact ND]. }
  assert (IHL : NoDup (slots (flat_map h L))).
  { apply IH; auto; [intros; apply Ln; right; auto|]. intros y1 y2 r1 r2 s I1 I2. apply Sep; right; auto. }
  pose proof (Ln y (or_introl eq_refl)) as L1. destruct (h y) as [|r [|r' l]] eqn:Eh; [exact IHL| |cbn in L1; lia].
  unfold slots at 1. cbn [flat_map]. destruct (slot_of r) as [s|] eqn:Er; [|exact IHL]. cbn [List.app].
  constructor; [|exact IHL]. intros I. apply slots_in in I as (r2 & I & E2). apply in_flat_map in I as (y2 & I2 & Ir2).
  destruct (Sep y y2 r r2 s) as [Es Nn]; auto; [left; auto|right; auto|rewrite Eh; left; auto|].
  unfold slots in ND. cbn [flat_map] in ND. destruct (slot_of y) as [s0|] eqn:Ey; [|congruence].
  inversion ND as [|? ? Ni _]; subst. apply Ni. apply slots_in. exists y2. auto.
Qed.

Lemma tidy_sub l x : tidy l -> In x l -> tidy (subs x).
Proof. intros T I. inversion T; auto. Qed.
Lemma tidy_nodup l : tidy l -> NoDup (slots l).
Proof. intros T. now inversion T. Qed.

Lemma unreserved_sub l x : unreserved l -> In x l -> unreserved (subs x).
Proof.
  intros U I p k n args inc skip A. apply (U (step_of x :: p) k n args inc skip). cbn. now constructor 2.
Qed.
Lemma unreserved_plainly l : unreserved l -> Forall plainly l.
Proof.
  intros U. apply Forall_forall. intros x I k inc skip E.
  destruct x as [n a args i s o sub|tc i s sub|n]; cbn in E; try discriminate. injection E as <- <- <-.
  apply (U [] (response_name n a) n args i s). cbn. apply (asks_here l _ I).
Qed.

Lemma key_inj k k' inc inc' skip skip' : FieldAt k inc skip = FieldAt k' inc' skip' -> k = k'.
Proof. congruence. Qed.

Section Main.
  Variable H : list write -> N.
  Variable flags : bool * bool.
  Notation agree := (agree H).
  Notation seg_of := (seg_of H).
  Notation join := (join H).
  Notation clash := (clash H).
  Notation tmode := (tmode flags).
  Notation merge := (merge_with H false (absorb H flags false)).

  Definition Pre (T S : list sel) : Prop :=
    tidy T /\ tidy S /\ unreserved S /\ honest (arguments_hash H) T S.

  Definition renamed (path : list seg) (new : records) (mine other : list sel) (rho : renaming) : Prop :=
    forall q al, asks mine q -> rho q = Some al ->
      reserved al /\ In (path ++ map seg_of q, al) new /\ rivalled other q.

  Definition Good (path : list seg) (T S : list sel) (jn : joined) : Prop :=
    (forall p, asks (j_res jn) p <->
       (exists q, asks T q /\ p = moved (j_t jn) q) \/ (exists q, asks S q /\ p = moved (j_s jn) q)) /\
    (tmode = true -> forall q, j_s jn q = None) /\ (tmode = false -> forall q, j_t jn q = None) /\
    renamed path (j_new jn) T S (j_t jn) /\ renamed path (j_new jn) S T (j_s jn) /\
    (forall r, In r (j_new jn) -> exists q al, r = (path ++ map seg_of q, al) /\
       (asks T q /\ j_t jn q = Some al \/ asks S q /\ j_s jn q = Some al)) /\
    tidy (j_res jn).

  Lemma join_step T S x t :
    honest (arguments_hash H) T S -> In t T -> In x S -> join x t = true ->
    step_of x = step_of t /\ honest (arguments_hash H) (subs t) (subs x).
  Proof.
    intros Ho It Ix J. inversion Ho as [? ? Hf Hg]; subst. unfold SafeScan.join in J. apply andb_true_iff in J as [Sa Ag].
    apply same_ok in Sa as (s & E & E').
    destruct x as [n a args inc skip o sub|tc inc skip sub|n], t as [n' a' args' inc' skip' o' sub'|tc' inc' skip' sub'|n'];
      cbn in E, E'; try congruence; injection E as <-; try discriminate E'.
    - injection E' as E1 -> ->. cbn in Ag. apply andb_true_iff in Ag as [A1 A2]. apply N.eqb_eq in A1. apply option_eqb_some in A2. subst a'.
      destruct (Hf _ _ _ _ _ _ _ _ _ _ _ It Ix) as (-> & -> & Hs); auto.
    - injection E' as -> -> ->. cbn. split; auto. eapply Hg; eauto.
  Qed.

  Lemma clash_rival x t : clash x t = true ->
    exists k n args inc skip n' args', step_of x = OnField k n args inc skip /\ step_of t = OnField k n' args' inc skip /\
      (n = n' -> args = args' -> n = k).
  Proof.
    intros C. destruct (clash_fields _ _ _ C) as (n & a & args & inc & skip & o & sub & n' & a' & args' & o' & sub' & -> & -> & E).
    exists (response_name n a), n, args, inc, skip, n', args'. cbn. rewrite E. split; [auto|split; [auto|]].
    intros <- <-. apply andb_true_iff in C as [_ C]. cbn in C. rewrite N.eqb_refl in C. cbn [andb] in C.
    destruct a as [a|], a' as [a'|]; cbn in *; auto. subst a'. now rewrite String.eqb_refl in C.
  Qed.

  Section Level.
    Variables (T S : list sel) (info : option slot -> joined) (al : option slot -> string) (path : list seg).
    Hypothesis NT : NoDup (slots T).
    Hypothesis NS : NoDup (slots S).
    Hypothesis Ho : honest (arguments_hash H) T S.
    Hypothesis Posts : forall x t, In x S -> In t T -> join x t = true ->
      Good (path ++ [seg_of (step_of x)]) (subs t) (subs x) (info (slot_of x)).

    Definition is_slot (t : sel) (s : slot) : bool :=
      match slot_of t with Some s' => if slot_eq_dec s' s then true else false | None => false end.
    Lemma is_slot_ok t s : is_slot t s = true <-> slot_of t = Some s.
    Proof.
      unfold is_slot. destruct (slot_of t) as [s'|]; [|split; discriminate].
      destruct (slot_eq_dec s' s) as [->|Ne]; split; auto; try discriminate. congruence.
    Qed.
    Definition at_slot (rel : sel -> sel -> bool) (s : slot) : bool :=
      existsb (fun t => is_slot t s && existsb (fun x => rel x t) S) T.

    Lemma at_T rel t s : In t T -> slot_of t = Some s -> at_slot rel s = existsb (fun x => rel x t) S.
    Proof.
      intros I E. unfold at_slot. destruct (existsb (fun x => rel x t) S) eqn:Ex.
      - apply existsb_exists. exists t. rewrite Ex. split; auto. apply andb_true_iff. split; auto. now apply is_slot_ok.
      - apply not_true_iff_false. intros ET. apply existsb_exists in ET as (t' & I' & B). apply andb_true_iff in B as [B B'].
        apply is_slot_ok in B. assert (t' = t) as ->; [|congruence].
        apply (slots_one T); auto. apply same_ok. eauto.
    Qed.
    Lemma at_S rel x s : (forall x t, rel x t = true -> same x t = true) ->
      In x S -> slot_of x = Some s -> at_slot rel s = existsb (rel x) T.
    Proof.
      intros R I E. unfold at_slot. destruct (existsb (rel x) T) eqn:Ex.
      - apply existsb_exists in Ex as (t & It & J). apply existsb_exists. exists t. split; auto. apply andb_true_iff. split.
        + apply is_slot_ok. rewrite <- E. symmetry. apply same_slot, R. auto.
        + apply existsb_exists. eauto.
      - apply not_true_iff_false. intros ET. apply existsb_exists in ET as (t' & I' & B). apply andb_true_iff in B as [B B'].
        apply is_slot_ok in B. apply existsb_exists in B' as (x' & Ix' & J').
        assert (x' = x) as ->.
        { apply (slots_one S); auto. apply same_ok. exists s. split; auto. rewrite <- B. apply same_slot, R. auto. }
        assert (existsb (rel x) T = true) by (apply existsb_exists; eauto). congruence.
    Qed.

    Lemma joined_one x x' t : In x S -> In x' S -> same x t = true -> same x' t = true -> x = x'.
    Proof. intros. apply (slots_one S); auto. rewrite same_sym in H3. eapply same_trans; eauto. Qed.

    Definition rho (mode : bool) (pick : joined -> renaming) : renaming := fun p =>
      match p with
      | [] => None
      | s :: q =>
          match slot_of_step s with
          | None => None
          | Some sl =>
              match q with
              | [] => if mode && at_slot clash sl then Some (al (Some sl)) else None
              | _ => if at_slot join sl then pick (info (Some sl)) q else None
              end
          end
      end.

    Lemma moved_level mode pick s sl q : slot_of_step s = Some sl ->
      moved (rho mode pick) (s :: q) =
      rekey s (rho mode pick [s]) :: (if at_slot join sl then moved (pick (info (Some sl))) q else q).
    Proof.
      intros E. cbn [moved]. f_equal. destruct (at_slot join sl) eqn:A.
      - apply moved_ext. intros q' Nn. destruct q'; [congruence|]. cbn [rho]. now rewrite E, A.
      - apply moved_none. intros q' Nn. destruct q'; [congruence|]. cbn [rho]. now rewrite E, A.
    Qed.
    Lemma moved_spread mode pick n q : moved (rho mode pick) (OnSpread n :: q) = OnSpread n :: q.
    Proof. cbn [moved]. f_equal. apply moved_none. reflexivity. Qed.

    Definition out (t : sel) : sel := f2 H flags S al (f1 H S info t).

    Lemma out_cases t : In t T ->
      (exists x, In x S /\ join x t = true /\ out t = with_subs t (j_res (info (slot_of t)))) \/
      (existsb (fun x => join x t) S = false /\ tmode = true /\ (exists x, In x S /\ clash x t = true) /\ out t = rename t (al (slot_of t))) \/
      (existsb (fun x => join x t) S = false /\ tmode && existsb (fun x => clash x t) S = false /\ out t = t).
    Proof.
      intros I. unfold out, f1. destruct (existsb (fun x => join x t) S) eqn:J.
      - left. apply existsb_exists in J as (x & Ix & J). exists x. split; auto. split; auto. unfold f2.
        assert (existsb (fun x0 => clash x0 (with_subs t (j_res (info (slot_of t))))) S = false) as ->; [|now rewrite andb_false_r].
        destruct (existsb _ S) eqn:C; [|auto]. apply existsb_exists in C as (x' & Ix' & C). rewrite clash_with in C.
        rewrite <- (joined_one x x' t) in C; auto using (join_same H x t), (clash_same H x' t).
        unfold SafeScan.clash, SafeScan.join in *. destruct (agree x t); [now rewrite andb_false_r in C|now rewrite andb_false_r in J].
      - right. unfold f2. destruct (tmode && existsb (fun x => clash x t) S) eqn:C; [left|right]; auto.
        apply andb_true_iff in C as [Tm C]. apply existsb_exists in C. auto.
    Qed.

    Lemma no_clash x t : In x S -> join x t = true -> existsb (fun x => clash x t) S = false.
    Proof.
      intros Ix J. destruct (existsb (fun x => clash x t) S) eqn:C; [|auto]. apply existsb_exists in C as (x' & Ix' & C).
      rewrite <- (joined_one x x' t) in C; auto using (join_same H x t), (clash_same H x' t).
      unfold SafeScan.clash, SafeScan.join in *. destruct (agree x t); [now rewrite andb_false_r in C|now rewrite andb_false_r in J].
    Qed.

    Lemma join_slot x t : join x t = true -> exists sl, slot_of x = Some sl /\ slot_of t = Some sl.
    Proof. intros J. apply join_same in J. now apply same_ok. Qed.
    Lemma clash_slot x t : clash x t = true -> exists sl, slot_of x = Some sl /\ slot_of t = Some sl.
    Proof. intros J. apply clash_same in J. now apply same_ok. Qed.

    Lemma subs_with t l sl : slot_of t = Some sl -> subs (with_subs t l) = l.
    Proof. destruct t; cbn; auto. discriminate. Qed.

    Lemma rho_T_here t sl : In t T -> slot_of t = Some sl ->
      rho tmode j_t [step_of t] = if tmode && existsb (fun x => clash x t) S then Some (al (Some sl)) else None.
    Proof. intros I E. cbn [rho]. rewrite slot_step, E. now rewrite (at_T clash t sl I E). Qed.
    Lemma rho_S_here x sl : In x S -> slot_of x = Some sl ->
      rho (negb tmode) j_s [step_of x] = if negb tmode && existsb (clash x) T then Some (al (Some sl)) else None.
    Proof.
      intros I E. cbn [rho]. rewrite slot_step, E. rewrite (at_S clash x sl); auto.
      intros. now apply (clash_same H).
    Qed.

    Lemma join_at x t sl : In x S -> In t T -> join x t = true -> slot_of t = Some sl ->
      at_slot join sl = true /\ at_slot clash sl = false.
    Proof.
      intros Ix It J E. rewrite (at_T join t sl), (at_T clash t sl) by auto. split.
      - apply existsb_exists. eauto.
      - eapply no_clash; eauto.
    Qed.

    Lemma out_from t p : In t T ->
      (from (out t) p <->
       (exists q, from t q /\ p = moved (rho tmode j_t) q) \/
       (exists x q, In x S /\ join x t = true /\ from x q /\ p = moved (rho (negb tmode) j_s) q)).
    Proof.
      intros It. destruct (out_cases t It) as [(x & Ix & J & ->)|[(J & Tm & (x & Ix & C) & ->)|(J & C & ->)]].
      - destruct (join_slot _ _ J) as (sl & Ex & Et). destruct (join_at x t sl Ix It J Et) as [Aj Ac].
        destruct (join_step T S x t Ho It Ix J) as [Es _].
        assert (MT : forall q, moved (rho tmode j_t) (step_of t :: q) = step_of t :: moved (j_t (info (slot_of x))) q).
        { intros q. rewrite (moved_level _ _ _ sl) by (now rewrite slot_step). rewrite Aj, Ex.
          cbn [rho]. rewrite slot_step, Et, Ac, andb_false_r. now destruct (step_of t). }
        assert (MS : forall q, moved (rho (negb tmode) j_s) (step_of x :: q) = step_of t :: moved (j_s (info (slot_of x))) q).
        { intros q. rewrite (moved_level _ _ _ sl) by (now rewrite slot_step). rewrite Aj, Es, Ex.
          cbn [rho]. rewrite slot_step, Et, Ac, andb_false_r. now destruct (step_of t). }
        destruct (Posts x t Ix It J) as (Iff & _).
        rewrite Et, <- Ex. split.
        + intros (q & -> & Q). rewrite step_with. rewrite (subs_with _ _ sl Et) in Q. destruct Q as [->|A].
          * left. exists [step_of t]. split; [exists []; auto|]. rewrite MT. reflexivity.
          * apply Iff in A as [(q' & A & ->)|(q' & A & ->)].
            -- left. exists (step_of t :: q'). split; [exists q'; auto|now rewrite MT].
            -- right. exists x, (step_of x :: q'). split; auto. split; auto. split; [exists q'; auto|now rewrite MS].
        + intros [(q & (q' & -> & Q) & ->)|(x' & q & Ix' & J' & (q' & -> & Q) & ->)].
          * rewrite MT. eexists. rewrite step_with. split; [reflexivity|]. rewrite (subs_with _ _ sl Et).
            destruct Q as [->|A]; [left; auto|right]. apply Iff. left. eauto.
          * assert (x' = x) as -> by (apply (joined_one x' x t); auto using (join_same H x t), (join_same H x' t)).
            rewrite MS. eexists. rewrite step_with. split; [reflexivity|]. rewrite (subs_with _ _ sl Et).
            destruct Q as [->|A]; [left; auto|right]. apply Iff. right. eauto.
      - destruct (clash_slot _ _ C) as (sl & Ex & Et).
        assert (Aj : at_slot join sl = false) by (now rewrite (at_T join t sl)).
        assert (CE : existsb (fun x => clash x t) S = true) by (apply existsb_exists; eauto).
        assert (MT : forall q, moved (rho tmode j_t) (step_of t :: q) = step_of (rename t (al (slot_of t))) :: q).
        { intros q. rewrite (moved_level _ _ _ sl) by (now rewrite slot_step). rewrite Aj, (rho_T_here t sl) by auto.
          rewrite Tm, CE, Et. cbn [andb]. destruct (clash_fields _ _ _ C) as (n & a & args & inc & skip & o & sub & n' & a' & args' & o' & sub' & -> & -> & E).
          reflexivity. }
        assert (Sr : subs (rename t (al (slot_of t))) = subs t) by (now destruct t).
        split.
        + intros (q & -> & Q). left. rewrite Sr in Q. exists (step_of t :: q). split; [exists q; auto|now rewrite MT].
        + intros [(q & (q' & -> & Q) & ->)|(x' & q & Ix' & J' & _)].
          * rewrite MT. exists q'. split; auto. now rewrite Sr.
          * exfalso. assert (existsb (fun x => join x t) S = true) by (apply existsb_exists; eauto). congruence.
      - assert (MT : forall q, moved (rho tmode j_t) (step_of t :: q) = step_of t :: q).
        { intros q. destruct (slot_of t) as [sl|] eqn:Et.
          - rewrite (moved_level _ _ _ sl) by (now rewrite slot_step). rewrite (rho_T_here t sl) by auto.
            rewrite C, (at_T join t sl), J by auto. now destruct (step_of t).
          - destruct t; cbn in Et; try discriminate. apply moved_spread. }
        split.
        + intros (q & -> & Q). left. exists (step_of t :: q). split; [exists q; auto|now rewrite MT].
        + intros [(q & (q' & -> & Q) & ->)|(x' & q & Ix' & J' & _)].
          * rewrite MT. exists q'. auto.
          * exfalso. assert (existsb (fun x => join x t) S = true) by (apply existsb_exists; eauto). congruence.
    Qed.

    Lemma added_from x p : In x S -> existsb (join x) T = false ->
      ((exists r, In r (added H flags T al x) /\ from r p) <->
       (exists q, from x q /\ p = moved (rho (negb tmode) j_s) q)).
    Proof.
      intros Ix J. unfold added. rewrite J.
      destruct (negb tmode && existsb (clash x) T) eqn:C.
      - pose proof C as C0. apply andb_true_iff in C0 as [Tm C0]. apply existsb_exists in C0 as (t & It & Ct).
        destruct (clash_slot _ _ Ct) as (sl & Ex & Et).
        assert (Aj : at_slot join sl = false).
        { rewrite (at_S join x sl); auto. intros. now apply (join_same H). }
        assert (MS : forall q, moved (rho (negb tmode) j_s) (step_of x :: q) = step_of (rename x (al (slot_of x))) :: q).
        { intros q. rewrite (moved_level _ _ _ sl) by (now rewrite slot_step). rewrite Aj, (rho_S_here x sl), C, Ex by auto.
          destruct (clash_fields _ _ _ Ct) as (n & a & args & inc & skip & o & sub & n' & a' & args' & o' & sub' & -> & -> & E).
          reflexivity. }
        assert (Sr : subs (rename x (al (slot_of x))) = subs x) by (now destruct x).
        split.
        + intros (r & [<-|[]] & q & -> & Q). rewrite Sr in Q. exists (step_of x :: q). split; [exists q; auto|now rewrite MS].
        + intros (q & (q' & -> & Q) & ->). rewrite MS. eexists. split; [left; reflexivity|]. exists q'. split; auto. now rewrite Sr.
      - assert (MS : forall q, moved (rho (negb tmode) j_s) (step_of x :: q) = step_of x :: q).
        { intros q. destruct (slot_of x) as [sl|] eqn:Ex.
          - rewrite (moved_level _ _ _ sl) by (now rewrite slot_step). rewrite (rho_S_here x sl), C by auto.
            rewrite (at_S join x sl), J; auto; [now destruct (step_of x)|]. intros. now apply (join_same H).
          - destruct x; cbn in Ex; try discriminate. apply moved_spread. }
        split.
        + intros (r & [<-|[]] & q & -> & Q). exists (step_of x :: q). split; [exists q; auto|now rewrite MS].
        + intros (q & (q' & -> & Q) & ->). rewrite MS. eexists. split; [left; reflexivity|]. exists q'. auto.
    Qed.

    Lemma level_iff p :
      asks (map out T ++ flat_map (added H flags T al) S) p <->
      (exists q, asks T q /\ p = moved (rho tmode j_t) q) \/
      (exists q, asks S q /\ p = moved (rho (negb tmode) j_s) q).
    Proof.
      rewrite asks_from. split.
      - intros (r & I & F). apply in_app_or in I as [I|I].
        + apply in_map_iff in I as (t & <- & It). apply (out_from t p It) in F as [(q & F & ->)|(x & q & Ix & J & F & ->)].
          * left. exists q. split; auto. apply asks_from. eauto.
          * right. exists q. split; auto. apply asks_from. eauto.
        + apply in_flat_map in I as (x & Ix & I). destruct (existsb (join x) T) eqn:J.
          { unfold added in I. rewrite J in I. contradiction. }
          right. destruct (proj1 (added_from x p Ix J)) as (q & F' & ->); [eauto|]. exists q. split; auto. apply asks_from. eauto.
      - intros [(q & A & ->)|(q & A & ->)]; apply asks_from in A as (y & I & F).
        + exists (out y). split; [apply in_or_app; left; now apply in_map|]. apply out_from; auto. left. eauto.
        + destruct (existsb (join y) T) eqn:J.
          * apply existsb_exists in J as (t & It & J). exists (out t). split; [apply in_or_app; left; now apply in_map|].
            apply out_from; auto. right. exists y, q. auto.
          * destruct (proj2 (added_from y (moved (rho (negb tmode) j_s) q) I J)) as (r & Ir & Fr); [eauto|].
            exists r. split; auto. apply in_or_app. right. apply in_flat_map. eauto.
    Qed.

    Hypothesis Names : forall x t, In x S -> In t T -> clash x t = true ->
      exists d, al (slot_of x) = alias_name d /\ keys_free (alias_name d) T.
    Hypothesis Inj : forall x x', In x S -> In x' S -> existsb (clash x) T = true -> existsb (clash x') T = true ->
      al (slot_of x) = al (slot_of x') -> slot_of x = slot_of x'.
    Hypothesis Pl : Forall plainly S.
    Hypothesis TT : tidy T.
    Hypothesis TS : tidy S.

    Definition news : records := gathered H T S info ++ flat_map (told H flags path T al) S.

    Lemma told_in x t : In x S -> In t T -> clash x t = true ->
      In (path ++ [seg_of (step_of (if tmode then t else x))], al (slot_of x)) news.
    Proof.
      intros Ix It C. apply in_or_app. right. apply in_flat_map. exists x. split; auto. unfold told.
      destruct (find (clash x) T) as [t'|] eqn:Fi.
      - apply find_some in Fi as (I' & C'). assert (t' = t) as ->.
        { apply (slots_one T); auto. apply (clash_same H) in C, C'. rewrite same_sym in C'. eapply same_trans; eauto. }
        left. auto.
      - pose proof (find_none _ _ Fi t It). congruence.
    Qed.
    Lemma gathered_in x t r : In x S -> In t T -> join x t = true -> In r (j_new (info (slot_of x))) -> In r news.
    Proof.
      intros Ix It J I. apply in_or_app. left. apply in_flat_map. exists x. split; auto.
      assert (existsb (join x) T = true) as -> by (apply existsb_exists; eauto). auto.
    Qed.

    Lemma rivalled_cons other y q : In y other -> rivalled (subs y) q -> rivalled other (step_of y :: q).
    Proof.
      intros I (q0 & k & n & args & inc & skip & n' & args' & -> & A & D).
      exists (step_of y :: q0), k, n, args, inc, skip, n', args'. split; [auto|split; [cbn; now constructor 2|auto]].
    Qed.

    Lemma at_joined sl : at_slot join sl = true ->
      exists x t, In x S /\ In t T /\ join x t = true /\ slot_of x = Some sl /\ slot_of t = Some sl.
    Proof.
      intros A. apply existsb_exists in A as (t & It & B). apply andb_true_iff in B as [B B'].
      apply is_slot_ok in B. apply existsb_exists in B' as (x & Ix & J). exists x, t. repeat split; auto.
      rewrite <- B. apply same_slot. now apply (join_same H).
    Qed.

    Lemma level_good :
      Good path T S (mkjoined (map out T ++ flat_map (added H flags T al) S) (rho tmode j_t) (rho (negb tmode) j_s) news).
    Proof.
      unfold Good. cbn [j_res j_t j_s j_new].
      split; [exact level_iff|]. split; [|split; [|split; [|split; [|split]]]].
      - intros Tm q. destruct q as [|s q]; [auto|]. cbn [rho]. destruct (slot_of_step s) as [sl|]; [|auto].
        destruct q; [now rewrite Tm|]. destruct (at_slot join sl) eqn:A; [|auto].
        destruct (at_joined sl A) as (x & t & Ix & It & J & Ex & Et). destruct (Posts x t Ix It J) as (_ & Ns & _).
        rewrite <- Ex. apply Ns. auto.
      - intros Tm q. destruct q as [|s q]; [auto|]. cbn [rho]. destruct (slot_of_step s) as [sl|]; [|auto].
        destruct q; [now rewrite Tm|]. destruct (at_slot join sl) eqn:A; [|auto].
        destruct (at_joined sl A) as (x & t & Ix & It & J & Ex & Et). destruct (Posts x t Ix It J) as (_ & _ & Nt & _).
        rewrite <- Ex. apply Nt. auto.
      - intros q a A R. apply asks_from in A as (t & It & q' & -> & Q). destruct (slot_of t) as [sl|] eqn:Et.
        2:{ cbn [rho] in R. rewrite slot_step, Et in R. discriminate. }
        destruct q' as [|s' q'].
        + rewrite (rho_T_here t sl) in R by auto. destruct (tmode && existsb _ S) eqn:C; [|discriminate].
          apply andb_true_iff in C as [Tm C]. apply existsb_exists in C as (x & Ix & C). injection R as <-.
          destruct (clash_slot _ _ C) as (sl' & Ex & Et'). assert (sl' = sl) as -> by congruence.
          destruct (Names x t Ix It C) as (d & Ed & _). rewrite Ex in Ed. split; [rewrite Ed; apply alias_reserved|]. split.
          * pose proof (told_in x t Ix It C) as I. rewrite Tm, Ex in I. exact I.
          * destruct (clash_rival _ _ C) as (k & n & args & inc & skip & n' & args' & E1 & E2 & D).
            exists [], k, n', args', inc, skip, n, args. rewrite E2. split; [auto|split].
            -- cbn. rewrite <- E1. now constructor.
            -- intros E3 E4. rewrite E3. apply D; auto.
        + cbn [rho] in R. rewrite slot_step, Et in R. destruct (at_slot join sl) eqn:A; [|discriminate].
          destruct (at_joined sl A) as (x & t' & Ix & It' & J & Ex & Et'). assert (t' = t) as ->.
          { apply (slots_one T); auto. apply same_ok. eauto. }
          destruct Q as [Q|Q]; [discriminate|]. destruct (Posts x t Ix It J) as (_ & _ & _ & RT & _). rewrite <- Ex in R.
          destruct (RT _ _ Q R) as (Rv & I & Ri). destruct (join_step T S x t Ho It Ix J) as [Es _].
          split; [exact Rv|]. split.
          * rewrite <- app_assoc in I. cbn [List.app] in I. rewrite Es in I. eapply gathered_in; eauto.
          * rewrite <- Es. apply rivalled_cons; auto.
      - intros q a A R. apply asks_from in A as (x & Ix & q' & -> & Q). destruct (slot_of x) as [sl|] eqn:Ex.
        2:{ cbn [rho] in R. rewrite slot_step, Ex in R. discriminate. }
        destruct q' as [|s' q'].
        + rewrite (rho_S_here x sl) in R by auto. destruct (negb tmode && existsb _ T) eqn:C; [|discriminate].
          apply andb_true_iff in C as [Tm C]. apply existsb_exists in C as (t & It & C). injection R as <-.
          destruct (Names x t Ix It C) as (d & Ed & _). rewrite Ex in Ed. split; [rewrite Ed; apply alias_reserved|]. split.
          * pose proof (told_in x t Ix It C) as I. apply negb_true_iff in Tm. rewrite Tm, Ex in I. exact I.
          * destruct (clash_rival _ _ C) as (k & n & args & inc & skip & n' & args' & E1 & E2 & D).
            exists [], k, n, args, inc, skip, n', args'. rewrite E1. split; [auto|split; [|auto]].
            cbn. rewrite <- E2. now constructor.
        + cbn [rho] in R. rewrite slot_step, Ex in R. destruct (at_slot join sl) eqn:A; [|discriminate].
          destruct (at_joined sl A) as (x' & t & Ix' & It & J & Ex' & Et). assert (x' = x) as ->.
          { apply (slots_one S); auto. apply same_ok. eauto. }
          destruct Q as [Q|Q]; [discriminate|]. destruct (Posts x t Ix It J) as (_ & _ & _ & _ & RS & _). rewrite <- Ex in R.
          destruct (RS _ _ Q R) as (Rv & I & Ri). destruct (join_step T S x t Ho It Ix J) as [Es _].
          split; [exact Rv|]. split.
          * rewrite <- app_assoc in I. cbn [List.app] in I. eapply gathered_in; eauto.
          * rewrite Es. apply rivalled_cons; auto.
      - intros r I. apply in_app_or in I as [I|I].
        + apply in_flat_map in I as (x & Ix & I). destruct (existsb (join x) T) eqn:J; [|contradiction].
          apply existsb_exists in J as (t & It & J). destruct (Posts x t Ix It J) as (_ & _ & _ & _ & _ & Rc & _).
          destruct (Rc r I) as (q & a & -> & W). destruct (join_step T S x t Ho It Ix J) as [Es _].
          destruct (join_slot _ _ J) as (sl & Ex & Et). destruct (join_at x t sl Ix It J Et) as [Aj _].
          exists (step_of x :: q), a. split; [now rewrite <- app_assoc|]. destruct W as [[A R]|[A R]].
          * left. rewrite Es. split; [now constructor 2|]. cbn [rho]. rewrite slot_step, Et, Aj, <- Ex.
            destruct q; [now apply asks_nil in A|exact R].
          * right. split; [now constructor 2|]. cbn [rho]. rewrite slot_step, Ex, Aj, <- Ex.
            destruct q; [now apply asks_nil in A|exact R].
        + apply in_flat_map in I as (x & Ix & I). unfold told in I. destruct (find (clash x) T) as [t|] eqn:Fi; [|contradiction].
          apply find_some in Fi as (It & C). destruct I as [<-|[]]. destruct (clash_slot _ _ C) as (sl & Ex & Et).
          exists [step_of (if tmode then t else x)], (al (slot_of x)). split; [auto|]. destruct tmode eqn:Tm.
          * left. split; [now constructor|]. cbn [rho]. rewrite slot_step, Et, (at_T clash t sl) by auto.
            assert (existsb (fun x => clash x t) S = true) as -> by (apply existsb_exists; eauto). now rewrite Ex.
          * right. split; [now constructor|]. cbn [rho]. rewrite slot_step, Ex, (at_S clash x sl); auto; [|intros; now apply (clash_same H)].
            assert (existsb (clash x) T = true) as -> by (apply existsb_exists; eauto). reflexivity.
      - constructor.
        + (* the places of the result *)
          set (h := fun y : sel + sel => match y with inl t => [out t] | inr x => added H flags T al x end).
          assert (KT : forall t, In t T -> existsb (fun x => clash x t) S = true ->
            exists x k inc skip, In x S /\ clash x t = true /\ slot_of t = Some (FieldAt k inc skip) /\ slot_of x = Some (FieldAt k inc skip) /\ ~ reserved k).
          { intros t It C. apply existsb_exists in C as (x & Ix & C). 
            destruct (clash_fields _ _ _ C) as (n & a & args & inc & skip & o & sub & n' & a' & args' & o' & sub' & Ex & Et & E).
            exists x, (response_name n a), inc, skip. split; auto. split; auto. rewrite Ex, Et. cbn. rewrite E. split; auto. split; auto.
            rewrite <- E. rewrite Forall_forall in Pl. apply (Pl x Ix _ inc skip). now rewrite Ex. }
          assert (OutS : forall t s, In t T -> slot_of (out t) = Some s ->
            (slot_of t = Some s /\ tmode && existsb (fun x => clash x t) S = false) \/
            (tmode = true /\ exists x k inc skip d, In x S /\ clash x t = true /\ slot_of t = Some (FieldAt k inc skip) /\
               al (slot_of t) = alias_name d /\ keys_free (alias_name d) T /\ s = FieldAt (alias_name d) inc skip)).
          { intros t s It E. destruct (out_cases t It) as [(x & Ix & J & Eo)|[(J & Tm & (x & Ix & C) & Eo)|(J & C & Eo)]]; rewrite Eo in E.
            - left. rewrite slot_with in E. split; auto. rewrite (no_clash x t Ix J). apply andb_false_r.
            - right. split; auto. destruct (KT t It) as (x' & k & inc & skip & Ix' & C' & Et & Ex & Nr); [apply existsb_exists; eauto|].
              destruct (Names x' t Ix' It C') as (d & Ed & Kf). rewrite Ex, <- Et in Ed.
              exists x', k, inc, skip, d. repeat split; auto. destruct t as [n a args i s0 o sub|tc i s0 sub|n]; cbn in Et; try discriminate.
              injection Et as E1 -> ->. cbn in E, Ed. rewrite Ed in E. now injection E.
            - left. auto. }
          assert (AddS : forall x r s, In x S -> In r (added H flags T al x) -> slot_of r = Some s ->
            existsb (join x) T = false /\
            ((slot_of x = Some s /\ negb tmode && existsb (clash x) T = false /\ (forall k inc skip, s = FieldAt k inc skip -> ~ reserved k)) \/
             (tmode = false /\ existsb (clash x) T = true /\ exists k inc skip d, slot_of x = Some (FieldAt k inc skip) /\
                al (slot_of x) = alias_name d /\ keys_free (alias_name d) T /\ s = FieldAt (alias_name d) inc skip))).
          { intros x r s Ix I E. unfold added in I. destruct (existsb (join x) T) eqn:J; [contradiction|]. split; auto.
            destruct (negb tmode && existsb (clash x) T) eqn:C.
            - apply andb_true_iff in C as [Tm C]. apply negb_true_iff in Tm. right. split; auto. split; auto.
              apply existsb_exists in C as (t & It & C). destruct (Names x t Ix It C) as (d & Ed & Kf).
              destruct I as [<-|[]].
              destruct (clash_fields _ _ _ C) as (n & a & args & inc & skip & o & sub & n' & a' & args' & o' & sub' & Ex & Et & E0).
              exists (response_name n a), inc, skip, d. rewrite Ex in *. cbn in *. repeat split; auto. rewrite Ed in E. now injection E.
            - left. destruct I as [<-|[]]. split; auto. split; auto. intros k inc skip ->.
              rewrite Forall_forall in Pl. eapply Pl; eauto. }
          rewrite slots_app.
          assert (N1 : NoDup (slots (map out T))).
          { replace (map out T) with (flat_map (fun t => [out t]) T) by (clear; induction T; cbn; congruence).
            apply nodup_slots_map; auto. intros t t' r r' s It It' [<-|[]] [<-|[]] E E'.
            destruct (OutS t s It E) as [[Es _]|(Tm & x & k & inc & skip & d & Ix & C & Et & Ed & Kf & ->)],
                     (OutS t' _ It' E') as [[Es' _]|(Tm' & x' & k' & inc' & skip' & d' & Ix' & C' & Et' & Ed' & Kf' & Eq)].
            - split; congruence.
            - exfalso. subst s. apply (Kf' t _ _ _ It Es). reflexivity.
            - exfalso. apply (Kf t' _ _ _ It' Es'). reflexivity.
            - apply key_inj in Eq. assert (slot_of x = slot_of x') as Ex.
              { destruct (clash_slot _ _ C) as (sl & Ex1 & Ex2), (clash_slot _ _ C') as (sl' & Ex1' & Ex2').
                apply Inj; auto; try (apply existsb_exists; eauto). rewrite Ex1, <- Ex2, Ex1', <- Ex2'. congruence. }
              split; [|rewrite Et; discriminate].
              rewrite <- (same_slot x t), <- (same_slot x' t'); auto using (clash_same H x t), (clash_same H x' t'). }
          assert (N2 : NoDup (slots (flat_map (added H flags T al) S))).
          { apply nodup_slots_map; auto.
            - intros y _. unfold added. destruct (existsb _ T); [cbn; lia|]. destruct (_ && _); cbn; lia.
            - intros x x' r r' s Ix Ix' Ir Ir' E E'.
              destruct (AddS x r s Ix Ir E) as [_ [(Es & _ & Nr)|(Tm & C & k & inc & skip & d & Ex & Ed & Kf & ->)]],
                       (AddS x' r' _ Ix' Ir' E') as [_ [(Es' & _ & Nr')|(Tm' & C' & k' & inc' & skip' & d' & Ex' & Ed' & Kf' & Eq)]].
              + split; congruence.
              + exfalso. subst s. eapply Nr; [reflexivity|apply alias_reserved].
              + exfalso. eapply Nr'; [reflexivity|apply alias_reserved].
              + apply key_inj in Eq. split; [|rewrite Ex; discriminate]. apply Inj; auto. congruence. }
          assert (D : forall s, In s (slots (map out T)) -> ~ In s (slots (flat_map (added H flags T al) S))).
          { intros s I1 I2. apply slots_in in I1 as (r & I1 & E1), I2 as (r' & I2 & E2).
            apply in_map_iff in I1 as (t & <- & It). apply in_flat_map in I2 as (x & Ix & Ir).
            destruct (OutS t s It E1) as [[Es Nc]|(Tm & x' & k & inc & skip & d & Ix' & C & Et & Ed & Kf & ->)],
                     (AddS x r' _ Ix Ir E2) as [Nj [(Es' & Nc' & Nr)|(Tm' & C' & k' & inc' & skip' & d' & Ex' & Ed' & Kf' & Eq)]].
            - assert (Sa : same x t = true) by (apply same_ok; eauto).
              assert (join x t = false) as Jf.
              { destruct (join x t) eqn:F; [|auto]. rewrite <- Nj. symmetry. apply existsb_exists. eauto. }
              assert (clash x t = true) as Cf.
              { unfold SafeScan.join in Jf. unfold SafeScan.clash. rewrite Sa in *. cbn in *. now rewrite Jf. }
              destruct tmode; cbn in Nc, Nc'.
              + assert (existsb (fun x => clash x t) S = true) by (apply existsb_exists; eauto). congruence.
              + assert (existsb (clash x) T = true) by (apply existsb_exists; eauto). congruence.
            - subst s. apply (Kf' t _ _ _ It Es). reflexivity.
            - eapply Nr; [reflexivity|apply alias_reserved].
            - congruence. }
          revert N1 N2 D. generalize (slots (map out T)) (slots (flat_map (added H flags T al) S)). clear.
          induction l as [|s l IH]; cbn; intros l' N1 N2 D; [auto|]. inversion N1; subst. constructor.
          * rewrite in_app_iff. intros [I|I]; [auto|]. apply (D s); auto.
          * apply IH; auto.
        + intros r I. apply in_app_or in I as [I|I].
          * apply in_map_iff in I as (t & <- & It).
            destruct (out_cases t It) as [(x & Ix & J & ->)|[(J & Tm & (x & Ix & C) & ->)|(J & C & ->)]].
            -- destruct (join_slot _ _ J) as (sl & Ex & Et). rewrite (subs_with _ _ sl Et).
               destruct (Posts x t Ix It J) as (_ & _ & _ & _ & _ & _ & Td). rewrite Et, <- Ex. exact Td.
            -- replace (subs (rename t (al (slot_of t)))) with (subs t) by (now destruct t). apply (tidy_sub T); auto.
            -- apply (tidy_sub T); auto.
          * apply in_flat_map in I as (x & Ix & I). unfold added in I. destruct (existsb (join x) T); [contradiction|].
            destruct (negb tmode && _); destruct I as [<-|[]].
            -- replace (subs (rename x (al (slot_of x)))) with (subs x) by (now destruct x). apply (tidy_sub S); auto.
            -- apply (tidy_sub S); auto.
    Qed.
  End Level.

  Lemma f1_shape S info t : exists l, f1 H S info t = with_subs t l.
  Proof.
    unfold f1. destruct (existsb _ S); [eauto|]. exists (subs t). now destruct t.
  Qed.

  Lemma exists_f1 (rel : sel -> sel -> bool) S info x T :
    (forall t l, rel x (with_subs t l) = rel x t) ->
    existsb (rel x) (map (f1 H S info) T) = existsb (rel x) T.
  Proof.
    intros E. induction T as [|t T IH]; cbn; [auto|]. destruct (f1_shape S info t) as (l & ->). now rewrite E, IH.
  Qed.

  Lemma acts_map S info T i src acts :
    acts_ok H flags T i src acts -> acts_ok H flags (map (f1 H S info) T) i src acts.
  Proof.
    induction 1 as [i|i x src d acts Fa Ac IH]; constructor; auto. clear IH Ac. destruct d as [|p|]; cbn [fate] in *.
    - destruct Fa as (t & It & J). exists (f1 H S info t). split; [now apply in_map|].
      destruct (f1_shape S info t) as (l & ->). now rewrite join_with.
    - destruct Fa as (j & t & Nt & C & Si). exists j, (f1 H S info t). split; [now apply map_nth_error|split; auto].
      destruct (f1_shape S info t) as (l & ->). now rewrite clash_with.
    - intros y I. apply in_map_iff in I as (t & <- & It). destruct (f1_shape S info t) as (l & ->). rewrite same_with. auto.
  Qed.

  Lemma slots_f1 S info T : slots (map (f1 H S info) T) = slots T.
  Proof.
    induction T as [|t T IH]; cbn; [auto|]. unfold slots in *. cbn. rewrite IH. destruct (f1_shape S info t) as (l & ->). now rewrite slot_with.
  Qed.

  Lemma find_f1 S info x T : find (clash x) (map (f1 H S info) T) = option_map (f1 H S info) (find (clash x) T).
  Proof.
    induction T as [|t T IH]; cbn; [auto|]. destruct (f1_shape S info t) as (l & E). rewrite E, clash_with.
    destruct (clash x t); [cbn; now rewrite E|exact IH].
  Qed.

  Lemma merge_level S : Forall (works H flags Pre Good) S -> forall path T st R st',
    Pre T S -> merge path T S st = Ok (R, st') ->
    exists jn, j_res jn = R /\ snd st' = snd st ++ j_new jn /\ (fst st <= fst st')%N /\ Good path T S jn.
  Proof.
    intros W path T st R st' (TT & TS & Un & Ho) E. unfold merge_with in E.
    destruct (scan _ _ _ _ _ _) as [[[T1 st1] acts]| |] eqn:Sc; cbn [bind] in E; try discriminate E.
    pose proof (tidy_nodup _ TT) as NT. pose proof (tidy_nodup _ TS) as NS.
    destruct (scan_ok H flags Pre Good S 0 path T st T1 st1 acts NT NS W) as (info & -> & Ac & Rs & Le & Ps); auto.
    { intros x t Ix It J. destruct (join_step T S x t Ho It Ix J) as [_ Hs]. split; [now apply (tidy_sub T)|].
      split; [now apply (tidy_sub S)|split; [now apply (unreserved_sub S)|exact Hs]]. }
    rewrite <- (app_nil_r (map (f1 H S info) T)) in E.
    destruct (settle_ok H flags S path S [] acts (map (f1 H S info) T) [] st1 R st') as (al & ER & Rs2 & Le2 & Al & Inj); auto.
    { now apply acts_map. }
    { now rewrite slots_f1. }
    { now apply unreserved_plainly. }
    assert (EC : forall x, existsb (clash x) (map (f1 H S info) T) = existsb (clash x) T).
    { intros. apply exists_f1. intros. apply clash_with. }
    assert (EJ : forall x, existsb (join x) (map (f1 H S info) T) = existsb (join x) T).
    { intros. apply exists_f1. intros. apply join_with. }
    exists (mkjoined (map (out S info al) T ++ flat_map (added H flags T al) S)
              (rho T S info al tmode j_t) (rho T S info al (negb tmode) j_s) (news T S info al path)).
    cbn [j_res j_new]. split; [|split; [|split; [lia|]]].
    - rewrite ER. cbn [List.app]. rewrite map_map. f_equal. apply flat_map_ext_in. intros x _. unfold added. now rewrite EJ, EC.
    - rewrite Rs2, Rs, <- app_assoc. f_equal. unfold news. f_equal. apply flat_map_ext_in. intros x _. unfold told. rewrite find_f1.
      destruct (find (clash x) T) as [t|]; cbn; [|auto]. destruct (f1_shape S info t) as (l & ->).
      destruct tmode; [now rewrite step_with|auto].
    - apply level_good; auto.
      + intros x t Ix It C. destruct (Al x (f1 H S info t) Ix) as (d & Ed & _ & Kf).
        * now apply in_map.
        * destruct (f1_shape S info t) as (l & ->). now rewrite clash_with.
        * exists d. split; auto. intros y k inc skip I Sy. apply (Kf (f1 H S info y) k inc skip); [now apply in_map|].
          destruct (f1_shape S info y) as (l & ->). now rewrite slot_with.
      + intros x x' Ix Ix' C C'. apply Inj; auto; now rewrite EC.
      + now apply unreserved_plainly.
  Qed.

  Lemma all_work x : works H flags Pre Good x.
  Proof.
    induction x as [n a args inc skip om sub IH|t inc skip sub IH|n] using sel_ind';
      intros path T st R st' P E; cbn [subs] in *; eapply merge_level; eauto.
  Qed.

  Lemma merge_good path T S st R st' :
    Pre T S -> merge path T S st = Ok (R, st') ->
    exists jn, j_res jn = R /\ snd st' = snd st ++ j_new jn /\ (fst st <= fst st')%N /\ Good path T S jn.
  Proof. apply merge_level. apply Forall_forall. intros x _. apply all_work. Qed.
End Main.
