From Coq Require Import String Ascii List Bool NArith Lia ZifyBool ZifyN Permutation.
From Verif Require Import StrUtil HeadersModel HeadersSpec HeadersProofs CacheControlModel CacheControlSpec.
Import ListNotations.
Local Open Scope string_scope.

(** ** Parsing = reading the directives *)
Fixpoint apply_directives (ds : list (string * option string)) (p : cc) : option cc :=
  match ds with
  | [] => Some p
  | d :: ds' => match parse_part p d with Some p' => apply_directives ds' p' | None => None end
  end.

Lemma apply_directives_app a b p :
  apply_directives (a ++ b)%list p =
  match apply_directives a p with Some p' => apply_directives b p' | None => None end.
Proof.
  revert p. induction a as [|d a IH]; intro p; simpl; [reflexivity|].
  destruct (parse_part p d); auto.
Qed.

Lemma parse_parts_directives parts : forall p,
  parse_parts parts p = apply_directives (flat_map directive_of parts) p.
Proof.
  induction parts as [|part parts IH]; intro p; cbn [parse_parts flat_map]; [reflexivity|].
  rewrite apply_directives_app. unfold directive_of at 1, token_value.
  destruct (trim part) as [|c t] eqn:E; [apply IH|].
  destruct (split_once "=" (String c t)) as [[a b]|]; cbn [apply_directives].
  - destruct (parse_part p (lower (trim a), Some (trim b))); [apply IH|reflexivity].
  - destruct (parse_part p (lower (String c t), None)); [apply IH|reflexivity].
Qed.

Lemma parse_directives h : trim h <> "" -> parse h = apply_directives (directives h) cc_default.
Proof.
  intro H. unfold parse, directives. destruct (trim h) eqn:E; [congruence|].
  apply parse_parts_directives.
Qed.

Definition is_d (d : string) (x : string * option string) : bool := String.eqb (fst x) d.
Definition age_of (x : string * option string) : option N :=
  if String.eqb (fst x) "max-age" then
    match snd x with Some v => parse_u32 v | None => None end
  else None.
Definition last_age (ds : list (string * option string)) (init : option N) : option N :=
  fold_left (fun acc x => match age_of x with Some n => Some n | None => acc end) ds init.

Lemma apply_directives_known ds : Forall (fun d => known d = true) ds -> forall p,
  apply_directives ds p =
  Some (mkcc (no_store p || existsb (is_d "no-store") ds)
             (no_cache p || existsb (is_d "no-cache") ds)
             (must_revalidate p || existsb (is_d "must-revalidate") ds)
             (is_private p || existsb (is_d "private") ds)
             (is_public p || existsb (is_d "public") ds)
             (last_age ds (max_age p))).
Proof.
  induction 1 as [|[t v] ds Hk Hds IH]; intro p.
  - simpl. rewrite !orb_false_r. destruct p; reflexivity.
  - cbn [apply_directives existsb last_age fold_left]. unfold parse_part.
    unfold known in Hk. unfold is_d at 1 3 5 7 9, age_of. cbn [fst snd].
    destruct (String.eqb_spec t "no-store") as [->|N1].
    { rewrite IH. cbn. rewrite ?orb_true_r, ?orb_false_r. reflexivity. }
    destruct (String.eqb_spec t "no-cache") as [->|N2].
    { rewrite IH. cbn. rewrite ?orb_true_r, ?orb_false_r. reflexivity. }
    destruct (String.eqb_spec t "must-revalidate") as [->|N3].
    { rewrite IH. cbn. rewrite ?orb_true_r, ?orb_false_r. reflexivity. }
    destruct (String.eqb_spec t "private") as [->|N4].
    { rewrite IH. cbn. rewrite ?orb_true_r, ?orb_false_r. reflexivity. }
    destruct (String.eqb_spec t "public") as [->|N5].
    { rewrite IH. cbn. rewrite ?orb_true_r, ?orb_false_r. reflexivity. }
    destruct (String.eqb_spec t "max-age") as [->|N6].
    2:{ exfalso. apply String.eqb_neq in N1, N2, N3, N4, N5. simpl in Hk.
        rewrite N1, N2, N3, N4, N5 in Hk. discriminate. }
    simpl in Hk. destruct v as [v|]; [|discriminate].
    destruct (parse_u32 v) as [n|]; [|discriminate].
    rewrite IH. cbn. reflexivity.
Qed.

Definition summary (h : string) : cc :=
  let ds := directives h in
  mkcc (existsb (is_d "no-store") ds) (existsb (is_d "no-cache") ds)
       (existsb (is_d "must-revalidate") ds) (existsb (is_d "private") ds)
       (existsb (is_d "public") ds) (last_age ds None).

Lemma parse_understood h : understood h -> to_str h = Some h /\ parse h = Some (summary h).
Proof.
  intros (Hv & Ht & Hk). split.
  - unfold to_str. change visible_char with visible_ascii. rewrite Hv. reflexivity.
  - rewrite parse_directives by exact Ht. rewrite apply_directives_known by exact Hk. reflexivity.
Qed.

(** ** Closed form of the fold *)
Definition omin (a b : option N) : option N :=
  match a, b with
  | Some a, Some b => Some (N.min a b)
  | Some a, None => Some a
  | None, b => b
  end.

Lemma omin_comm a b : omin a b = omin b a.
Proof. destruct a, b; simpl; try reflexivity. f_equal. lia. Qed.
Lemma omin_assoc a b c : omin a (omin b c) = omin (omin a b) c.
Proof. destruct a, b, c; simpl; try reflexivity. f_equal. lia. Qed.
Lemma omin_none_r a : omin a None = a.
Proof. destruct a; reflexivity. Qed.

Definition all_public (ps : list cc) := forallb is_public ps.
Definition any_mr (ps : list cc) := existsb must_revalidate ps.
Definition any_poison (ps : list cc) := existsb poisoned ps.
Definition min_age (ps : list cc) := fold_right (fun p acc => omin (max_age p) acc) None ps.

(** the states that print alike *)
Definition closed (ps : list cc) (m : cc) : Prop :=
  poisoned m = any_poison ps /\
  (any_poison ps = false ->
     is_public m = all_public ps /\ must_revalidate m = any_mr ps /\ max_age m = min_age ps).

Lemma min_age_app a b : min_age (a ++ b)%list = omin (min_age a) (min_age b).
Proof.
  induction a as [|p a IH]; simpl; [reflexivity|]. unfold min_age in *. simpl. rewrite IH.
  apply omin_assoc.
Qed.

Lemma fold_merge_closed ps : forall done m, closed done m -> done <> [] ->
  exists m', fold_left merge_into ps (Some m) = Some m' /\ closed (done ++ ps)%list m'.
Proof.
  induction ps as [|p ps IH]; intros done m Hm Hne; cbn [fold_left].
  - exists m. split; [reflexivity|]. rewrite app_nil_r. exact Hm.
  - assert (exists m1, merge_into (Some m) p = Some m1 /\ closed (done ++ [p])%list m1) as [m1 [E C]].
    { unfold merge_into. destruct Hm as [Hp Hr]. unfold closed, any_poison, all_public, any_mr.
      rewrite !existsb_app, forallb_app, min_age_app. simpl.
      rewrite !orb_false_r, andb_true_r, omin_none_r. rewrite Hp.
      destruct (any_poison done) eqn:Ed; unfold any_poison in Ed; rewrite ?Ed; simpl.
      - eexists; split; [reflexivity|]. split; [reflexivity|discriminate].
      - destruct (poisoned p) eqn:Ep; simpl.
        + eexists; split; [reflexivity|]. split; [reflexivity|discriminate].
        + destruct (Hr eq_refl) as (H1 & H2 & H3).
          eexists; split; [reflexivity|]. unfold poisoned in Hp. split.
          * unfold poisoned; cbn. exact Hp.
          * intros _. cbn. unfold all_public, any_mr in *. rewrite H1, H2, H3.
            split; [reflexivity|]. split; [reflexivity|].
            destruct (min_age done), (max_age p); reflexivity. }
    rewrite E. destruct (IH _ _ C) as [m' [F G]]; [destruct done; discriminate|].
    exists m'. split; [exact F|]. rewrite <- app_assoc in G. exact G.
Qed.

Lemma fold_values_understood vs : Forall understood vs ->
  fold_values vs = fold_left merge_into (map summary vs) None.
Proof.
  unfold fold_values. intro H. generalize (@None cc) as acc.
  induction H as [|v vs Hv Hvs IH]; intro acc; [reflexivity|].
  cbn [map fold_left]. destruct (parse_understood v Hv) as [E1 E2]. rewrite E1, E2. apply IH.
Qed.

Lemma fold_values_closed vs : Forall understood vs -> vs <> [] ->
  exists m, fold_values vs = Some m /\ closed (map summary vs) m.
Proof.
  intros H Hne. rewrite fold_values_understood by exact H.
  destruct vs as [|v vs]; [congruence|]. cbn [map fold_left merge_into].
  assert (C : closed [summary v] (summary v)).
  { split.
    - unfold any_poison; cbn [existsb]. rewrite orb_false_r. reflexivity.
    - intros _. unfold all_public, any_mr, min_age. cbn [forallb existsb fold_right].
      rewrite andb_true_r, orb_false_r, omin_none_r. auto. }
  apply (fold_merge_closed (map summary vs) [summary v] (summary v) C). discriminate.
Qed.

(** ** Reading what the router writes *)
Definition plain (p : string) : Prop := p <> "" /\ no_ws p = true /\ has_char "," p = false.

Lemma trim_space p : plain p -> trim (" " ++ p) = p.
Proof.
  intros (Hne & Hw & _). unfold trim. simpl.
  rewrite trim_start_no_ws by exact Hw. apply trim_end_no_ws, Hw.
Qed.

Lemma split_join p ps : Forall plain (p :: ps) ->
  split_on "," (join ", " (p :: ps)) = p :: map (fun q => " " ++ q) ps.
Proof.
  revert p. induction ps as [|q ps IH]; intros p H; inversion H as [|? ? Hp Hps]; subst.
  - cbn [join map]. apply split_on_none. apply Hp.
  - change (join ", " (p :: q :: ps)) with (p ++ ", " ++ join ", " (q :: ps)).
    change (p ++ ", " ++ join ", " (q :: ps)) with (p ++ String "," (" " ++ join ", " (q :: ps))).
    rewrite split_on_app by apply Hp. f_equal. cbn [map].
    specialize (IH q Hps).
    change (" " ++ join ", " (q :: ps)) with (String " " (join ", " (q :: ps))).
    cbn [split_on]. change (Ascii.eqb "," " ") with false. cbv iota. rewrite IH. reflexivity.
Qed.

Lemma join_nonempty p ps : p <> "" -> join ", " (p :: ps) <> "".
Proof.
  intro H. destruct p as [|c p]; [congruence|]. destruct ps; discriminate.
Qed.

Lemma trim_join p ps : Forall plain (p :: ps) -> trim (join ", " (p :: ps)) = join ", " (p :: ps).
Proof.
  intro H. unfold trim.
  assert (S : trim_start (join ", " (p :: ps)) = join ", " (p :: ps)).
  { inversion H as [|? ? (Hne & Hw & _) _]; subst. destruct p as [|c p]; [congruence|].
    unfold no_ws in Hw. simpl in Hw. apply andb_true_iff in Hw as [Hc _]. apply negb_true_iff in Hc.
    destruct ps; cbn [join]; simpl; rewrite Hc; reflexivity. }
  rewrite S. clear S.
  revert p H. induction ps as [|q ps IH]; intros p H.
  - cbn [join]. inversion H as [|? ? (_ & Hw & _) _]; subst. apply trim_end_no_ws, Hw.
  - change (join ", " (p :: q :: ps)) with (p ++ ", " ++ join ", " (q :: ps)).
    inversion H as [|? ? Hp Hps]; subst.
    assert (J : join ", " (q :: ps) <> "") by (apply join_nonempty; inversion Hps as [|? ? (Hq & _) _]; exact Hq).
    rewrite trim_end_app.
    + reflexivity.
    + destruct (join ", " (q :: ps)); discriminate.
    + apply trim_end_app; [exact J|]. apply IH, Hps.
Qed.

Definition one_directive (p : string) : string * option string :=
  match split_once "=" p with
  | Some (t, v) => (lower (trim t), Some (trim v))
  | None => (lower p, None)
  end.

Lemma directive_of_plain p : plain p -> directive_of p = [one_directive p].
Proof.
  intros (Hne & Hw & _). unfold directive_of, one_directive. rewrite trim_no_ws by exact Hw.
  destruct p; [congruence|]. destruct (split_once _ _) as [[x y]|]; reflexivity.
Qed.

Lemma directive_of_space_plain p : plain p -> directive_of (" " ++ p) = [one_directive p].
Proof.
  intros H. unfold directive_of, one_directive. rewrite trim_space by exact H.
  destruct H as (Hne & _). destruct p; [congruence|]. destruct (split_once _ _) as [[x y]|]; reflexivity.
Qed.

Lemma directives_join ps : Forall plain ps -> directives (join ", " ps) = map one_directive ps.
Proof.
  intro H. destruct ps as [|p ps]; [reflexivity|].
  unfold directives. rewrite trim_join by exact H. rewrite split_join by exact H.
  inversion H as [|? ? Hp Hps]; subst. cbn [flat_map map]. rewrite directive_of_plain by exact Hp.
  cbn [app]. f_equal. clear H Hp. induction Hps as [|q ps Hq Hps IH]; [reflexivity|].
  cbn [map flat_map]. rewrite directive_of_space_plain by exact Hq. cbn [app]. f_equal. exact IH.
Qed.

Lemma plain_age n : plain ("max-age=" ++ N_to_dec n).
Proof.
  split; [discriminate|]. split.
  - unfold no_ws. rewrite all_chars_app. fold (no_ws (N_to_dec n)). rewrite N_to_dec_no_ws. reflexivity.
  - rewrite has_char_app. rewrite (digits_no_char "," (N_to_dec n)); [reflexivity|reflexivity|apply N_to_dec_digits].
Qed.

Lemma one_directive_age n : one_directive ("max-age=" ++ N_to_dec n) = ("max-age", Some (N_to_dec n)).
Proof.
  unfold one_directive. change ("max-age=" ++ N_to_dec n) with ("max-age" ++ String "=" (N_to_dec n)).
  rewrite split_once_app by reflexivity. rewrite trim_no_ws with (s := N_to_dec n) by apply N_to_dec_no_ws.
  reflexivity.
Qed.

Definition out_directives (p : cc) : list (string * option string) :=
  if poisoned p then [("no-store", None); ("no-cache", None)]
  else ((if is_public p then [("public", None)] else []) ++
        (match max_age p with Some n => [("max-age", Some (N_to_dec n))] | None => [] end) ++
        (if must_revalidate p then [("must-revalidate", None)] else []))%list.

Lemma directives_out p : directives (to_header_value p) = out_directives p.
Proof.
  unfold to_header_value, out_directives. destruct (poisoned p); [reflexivity|].
  rewrite directives_join.
  - rewrite !map_app. f_equal; [destruct (is_public p); reflexivity|].
    f_equal; [|destruct (must_revalidate p); reflexivity].
    destruct (max_age p) as [n|]; [|reflexivity]. cbn [map]. rewrite one_directive_age. reflexivity.
  - apply Forall_app; split; [destruct (is_public p); repeat constructor; discriminate|].
    apply Forall_app; split; [destruct (max_age p) as [n|]; constructor; [apply plain_age|constructor]|].
    destruct (must_revalidate p); repeat constructor; discriminate.
Qed.

(** The [expect] in finalize cannot fail. *)
Lemma to_header_value_valid p : all_chars visible_char (to_header_value p) = true.
Proof.
  unfold to_header_value. destruct (poisoned p); [reflexivity|].
  assert (J : forall ps, Forall (fun q => all_chars visible_char q = true) ps ->
                all_chars visible_char (join ", " ps) = true).
  { induction 1 as [|q ps Hq Hps IH]; [reflexivity|]. cbn [join]. destruct ps; [exact Hq|].
    rewrite !all_chars_app, Hq, IH. reflexivity. }
  apply J. apply Forall_app; split; [destruct (is_public p); repeat constructor|].
  apply Forall_app; split; [|destruct (must_revalidate p); repeat constructor].
  destruct (max_age p) as [n|]; repeat constructor. rewrite all_chars_app. simpl.
  eapply all_chars_impl; [|apply N_to_dec_digits].
  intro c. unfold is_digit, visible_char. cbv zeta. lia.
Qed.

(** ** The client header *)
Definition client_cc (vs : list string) (total : nat) (m : cc) : string :=
  to_header_value (if Nat.ltb (List.length vs) total
                   then mkcc (no_store m) (no_cache m) (must_revalidate m) (is_private m) false (max_age m)
                   else m).

Definition result_cc (ps : list cc) (silent : bool) : cc :=
  mkcc (any_poison ps) (any_poison ps) (any_mr ps) false (all_public ps && negb silent) (min_age ps).

Lemma closed_prints ps m (silent : bool) : closed ps m ->
  to_header_value (if silent
                   then mkcc (no_store m) (no_cache m) (must_revalidate m) (is_private m) false (max_age m)
                   else m) = to_header_value (result_cc ps silent).
Proof.
  intros [Hp Hr].
  assert (P : forall b, poisoned (mkcc (no_store m) (no_cache m) (must_revalidate m) (is_private m) b (max_age m)) = poisoned m)
    by reflexivity.
  unfold to_header_value. unfold result_cc at 1. unfold poisoned at 2. cbn.
  destruct (any_poison ps) eqn:E.
  - destruct silent; rewrite ?P, Hp; reflexivity.
  - destruct (Hr eq_refl) as (H1 & H2 & H3).
    destruct silent; rewrite ?P, Hp; cbn; rewrite ?H1, ?H2, ?H3, ?andb_false_r, ?andb_true_r; reflexivity.
Qed.

(** What [finalize] leaves for the client, for headers it understands. *)
Lemma finalize_understood a s vs total :
  aget "cache-control" a = Some (s, vs) -> vs <> [] -> Forall understood vs ->
  aget "cache-control" (finalize a false total) =
    Some (Last, [to_header_value (result_cc (map summary vs) (Nat.ltb (List.length vs) total))]).
Proof.
  intros Ha Hne Hu. unfold finalize. rewrite Ha.
  destruct (fold_values_closed vs Hu Hne) as [m [E C]]. rewrite E.
  cbv zeta. rewrite aget_aset, String.eqb_refl. rewrite (closed_prints _ _ _ C). reflexivity.
Qed.

Lemma existsb_d_says d h : existsb (is_d d) (directives h) = true <-> says d h.
Proof.
  unfold says. rewrite existsb_exists. split.
  - intros [[t v] [Hin E]]. unfold is_d in E. apply String.eqb_eq in E. cbn in E. subst. eauto.
  - intros [v Hin]. exists (d, v). split; [exact Hin|apply String.eqb_refl].
Qed.

Lemma poisoned_summary h : poisoned (summary h) = true <-> forbids h.
Proof.
  unfold poisoned, summary, forbids. cbn. rewrite !orb_true_iff, !existsb_d_says. tauto.
Qed.

(** reading the result *)
Lemma says_out d p : says d (to_header_value p) <-> exists v, In (d, v) (out_directives p).
Proof. unfold says. rewrite directives_out. reflexivity. Qed.

Ltac crunch := cbn in *; repeat match goal with
  | H : _ \/ _ |- _ => destruct H as [H|H]
  | H : False |- _ => destruct H
  | H : (_, _) = (_, _) |- _ => inversion H; subst; clear H
  end.

Lemma says_public_out p : says "public" (to_header_value p) <-> poisoned p = false /\ is_public p = true.
Proof.
  rewrite says_out. unfold out_directives. split.
  - intros [v H]. destruct (poisoned p); [crunch|]. split; [reflexivity|].
    rewrite !in_app_iff in H. destruct (is_public p), (max_age p), (must_revalidate p); crunch; reflexivity.
  - intros [H1 H2]. rewrite H1, H2. exists None. left. reflexivity.
Qed.

Lemma says_nostore_out p : poisoned p = true ->
  directives (to_header_value p) = [("no-store", None); ("no-cache", None)].
Proof. intro H. rewrite directives_out. unfold out_directives. rewrite H. reflexivity. Qed.

Lemma says_age_out p n : says_max_age n (to_header_value p) ->
  poisoned p = false /\ exists m, max_age p = Some m /\ parse_u32 (N_to_dec m) = Some n.
Proof.
  unfold says_max_age. rewrite directives_out. unfold out_directives. intros [v [H P]].
  destruct (poisoned p); [crunch; discriminate|]. split; [reflexivity|].
  rewrite !in_app_iff in H. destruct (is_public p), (max_age p) as [m|], (must_revalidate p); crunch;
    try discriminate; eauto.
Qed.

Lemma out_says_age p n : poisoned p = false -> max_age p = Some n -> (n <= u32_max)%N ->
  says_max_age n (to_header_value p).
Proof.
  intros H1 H2 H3. exists (N_to_dec n). rewrite directives_out. unfold out_directives. rewrite H1, H2.
  split; [|apply parse_u32_dec, H3]. rewrite !in_app_iff. right. left. left. reflexivity.
Qed.

(** ages *)
Lemma parse_u32_bound s n : parse_u32 s = Some n -> (n <= u32_max)%N.
Proof.
  unfold parse_u32. cbv zeta. intro H.
  set (b := match s with String "+" s' => s' | _ => s end) in H. clearbody b.
  destruct b; [discriminate|].
  destruct (DecimalString.NilEmpty.uint_of_string _); [|discriminate].
  destruct (N.of_uint u <=? u32_max)%N eqn:E; [|discriminate].
  inversion H; subst. apply N.leb_le. exact E.
Qed.

Lemma last_age_bound ds : forall init, (forall n, init = Some n -> (n <= u32_max)%N) ->
  forall n, last_age ds init = Some n -> (n <= u32_max)%N.
Proof.
  induction ds as [|[t v] ds IH]; intros init Hi n; cbn [last_age fold_left].
  - apply Hi.
  - apply IH. intros k. unfold age_of. cbn [fst snd].
    destruct (String.eqb t "max-age"); [|apply Hi].
    destruct v as [v|]; [|apply Hi].
    destruct (parse_u32 v) eqn:E; [|apply Hi]. intro H; inversion H; subst.
    eapply parse_u32_bound, E.
Qed.

Lemma last_age_none ds init :
  filter (fun d => String.eqb (fst d) "max-age") ds = [] -> last_age ds init = init.
Proof.
  unfold last_age. revert init. induction ds as [|[t v] ds IH]; intros init H; [reflexivity|].
  cbn in H. cbn [fold_left]. unfold age_of at 2. cbn [fst].
  destruct (String.eqb t "max-age"); [discriminate|]. apply IH, H.
Qed.

Lemma last_age_one h n : one_max_age h ->
  says_max_age n h -> last_age (directives h) None = Some n.
Proof.
  unfold one_max_age, says_max_age. intros H1 [v [Hin Hp]].
  generalize (@None N) as init.
  induction (directives h) as [|[t w] ds IH]; [destruct Hin|]. intro init.
  cbn [filter fst] in H1. cbn [last_age fold_left]. unfold age_of. cbn [fst snd].
  destruct Hin as [E|Hin].
  - inversion E; subst. rewrite String.eqb_refl in *. rewrite Hp.
    apply last_age_none. cbn in H1.
    destruct (filter _ ds); [reflexivity|]. cbn in H1. lia.
  - destruct (String.eqb_spec t "max-age") as [->|Hne].
    + exfalso. cbn in H1.
      assert (Hf : In ("max-age", Some v) (filter (fun d => String.eqb (fst d) "max-age") ds))
        by (apply filter_In; auto).
      destruct (filter _ ds); [destruct Hf|]. cbn in H1. lia.
    + apply IH; assumption.
Qed.

Lemma last_age_says h n : last_age (directives h) None = Some n -> says_max_age n h.
Proof.
  unfold says_max_age.
  assert (G : forall ds init, last_age ds init = Some n ->
            init = Some n \/ exists v, In ("max-age", Some v) ds /\ parse_u32 v = Some n).
  { induction ds as [|[t w] ds IH]; intros init H; [left; exact H|].
    cbn [last_age fold_left] in H. destruct (IH _ H) as [E|[v [Hin Hv]]].
    - unfold age_of in E. cbn [fst snd] in E.
      destruct (String.eqb_spec t "max-age") as [->|]; [|left; exact E].
      destruct w as [w|]; [|left; exact E].
      destruct (parse_u32 w) eqn:P; [|left; exact E].
      right. exists w. inversion E; subst. split; [left; reflexivity|exact P].
    - right. exists v. split; [right; exact Hin|exact Hv]. }
  intro H. destruct (G _ _ H) as [E|E]; [discriminate|exact E].
Qed.

Lemma min_age_le ps p n : In p ps -> max_age p = Some n ->
  exists m, min_age ps = Some m /\ (m <= n)%N.
Proof.
  induction ps as [|q ps IH]; [intros []|]. cbn [min_age fold_right]. fold (min_age ps).
  intros [->|Hin] E.
  - rewrite E. destruct (min_age ps) as [k|]; simpl; eexists; split; try reflexivity; lia.
  - destruct (IH Hin E) as [m [Hm Hle]]. rewrite Hm.
    destruct (max_age q); simpl; eexists; split; try reflexivity; lia.
Qed.

Lemma min_age_some ps m : min_age ps = Some m -> exists p, In p ps /\ max_age p = Some m.
Proof.
  revert m. induction ps as [|q ps IH]; intro m; cbn [min_age fold_right]; [discriminate|].
  fold (min_age ps). destruct (max_age q) as [a|] eqn:Ea.
  - destruct (min_age ps) as [b|] eqn:Eb; simpl; intro H; inversion H; subst.
    + destruct (N.min_spec a b) as [[_ ->]|[_ ->]].
      * exists q. split; [left; reflexivity|exact Ea].
      * destruct (IH b eq_refl) as [p [Hin Hp]]. exists p. split; [right; exact Hin|exact Hp].
    + exists q. split; [left; reflexivity|exact Ea].
  - simpl. intro H. destruct (IH m H) as [p [Hin Hp]]. exists p. split; [right; exact Hin|exact Hp].
Qed.

Lemma min_age_bound vs n : min_age (map summary vs) = Some n -> (n <= u32_max)%N.
Proof.
  intro H. destruct (min_age_some _ _ H) as [p [Hin Hp]].
  apply in_map_iff in Hin as [h [<- _]]. cbn in Hp.
  eapply last_age_bound; [|exact Hp]. discriminate.
Qed.

(** ** Main statements *)
Section Main.
  Variables (a : agg) (s : strategy) (vs : list string) (total : nat).
  Hypothesis Ha : aget "cache-control" a = Some (s, vs).
  Hypothesis Hne : vs <> [].
  Hypothesis Hu : Forall understood vs.

  Let r := to_header_value (result_cc (map summary vs) (Nat.ltb (List.length vs) total)).

  Lemma main_entry : aget "cache-control" (finalize a false total) = Some (Last, [r]).
  Proof. apply (finalize_understood a s vs total Ha Hne Hu). Qed.

  Lemma poison_iff : any_poison (map summary vs) = true <-> exists v, In v vs /\ forbids v.
  Proof.
    unfold any_poison. rewrite existsb_exists. split.
    - intros [p [Hin Hp]]. apply in_map_iff in Hin as [v [<- Hv]]. exists v. split; [exact Hv|].
      apply poisoned_summary, Hp.
    - intros [v [Hv Hf]]. exists (summary v). split; [apply in_map, Hv|]. apply poisoned_summary, Hf.
  Qed.

  Lemma poisoned_result : poisoned (result_cc (map summary vs) (Nat.ltb (List.length vs) total)) = any_poison (map summary vs).
  Proof. unfold poisoned, result_cc. cbn. destruct (any_poison _); reflexivity. Qed.

  Lemma main_forbids v : In v vs -> forbids v ->
    directives r = [("no-store", None); ("no-cache", None)].
  Proof.
    intros Hv Hf. apply says_nostore_out. rewrite poisoned_result. apply poison_iff. eauto.
  Qed.

  Lemma main_public : says "public" r -> total <= List.length vs /\ forall v, In v vs -> says "public" v.
  Proof.
    intro H. apply says_public_out in H as [_ H]. cbn in H. apply andb_true_iff in H as [H1 H2].
    split.
    - apply negb_true_iff in H2. apply PeanoNat.Nat.ltb_ge in H2. exact H2.
    - intros v Hv. unfold all_public in H1. rewrite forallb_forall in H1.
      apply existsb_d_says. apply (H1 (summary v)). apply in_map, Hv.
  Qed.

  Lemma main_age_upper n v m : Forall one_max_age vs -> In v vs -> says_max_age m v ->
    says_max_age n r -> (n <= m)%N.
  Proof.
    intros H1 Hv Hm Hn. apply says_age_out in Hn as [_ [k [Hk P]]]. cbn in Hk.
    assert (B := min_age_bound vs k Hk).
    rewrite parse_u32_dec in P by exact B. inversion P; subst k. clear P.
    rewrite Forall_forall in H1.
    destruct (min_age_le (map summary vs) (summary v) m) as [k [Hk' Hle]].
    - apply in_map, Hv.
    - cbn. apply last_age_one; auto.
    - rewrite Hk in Hk'. inversion Hk'; subst. exact Hle.
  Qed.

  Lemma main_age_present v m : Forall one_max_age vs -> In v vs -> says_max_age m v ->
    (exists n, (n <= m)%N /\ says_max_age n r /\ exists w, In w vs /\ says_max_age n w)
    \/ directives r = [("no-store", None); ("no-cache", None)].
  Proof.
    intros H1 Hv Hm. rewrite Forall_forall in H1.
    destruct (min_age_le (map summary vs) (summary v) m) as [k [Hk Hle]].
    - apply in_map, Hv.
    - cbn. apply last_age_one; auto.
    - destruct (any_poison (map summary vs)) eqn:E.
      + right. apply says_nostore_out. rewrite poisoned_result. exact E.
      + left. exists k. split; [exact Hle|]. split.
        * apply out_says_age; [rewrite poisoned_result; exact E|exact Hk|eapply min_age_bound, Hk].
        * destruct (min_age_some _ _ Hk) as [p [Hin Hp]]. apply in_map_iff in Hin as [w [<- Hw]].
          exists w. split; [exact Hw|]. apply last_age_says, Hp.
  Qed.

  Lemma main_mr v : In v vs -> says "must-revalidate" v ->
    says "must-revalidate" r \/ directives r = [("no-store", None); ("no-cache", None)].
  Proof.
    intros Hv Hs. destruct (any_poison (map summary vs)) eqn:E.
    - right. apply says_nostore_out. rewrite poisoned_result. exact E.
    - left. apply says_out. exists None. unfold out_directives. rewrite poisoned_result, E. cbn.
      rewrite !in_app_iff. right. right.
      assert (M : any_mr (map summary vs) = true).
      { unfold any_mr. rewrite existsb_exists. exists (summary v). split; [apply in_map, Hv|].
        apply existsb_d_says, Hs. }
      rewrite M. left. reflexivity.
  Qed.
End Main.

Lemma existsb_perm {A} (f : A -> bool) l l' : Permutation l l' -> existsb f l = existsb f l'.
Proof. induction 1; simpl; try congruence. destruct (f x), (f y); reflexivity. Qed.
Lemma forallb_perm {A} (f : A -> bool) l l' : Permutation l l' -> forallb f l = forallb f l'.
Proof. induction 1; simpl; try congruence. destruct (f x), (f y); reflexivity. Qed.
Lemma min_age_perm l l' : Permutation l l' -> min_age l = min_age l'.
Proof.
  induction 1 as [|x l l' H IH|x y l|l1 l2 l3 H1 IH1 H2 IH2]; cbn [min_age fold_right]; auto.
  - fold (min_age l) (min_age l'). congruence.
  - fold (min_age l). rewrite !omin_assoc. f_equal. apply omin_comm.
  - congruence.
Qed.

(** Order independence holds for all headers, understood or not: those the parser
    rejects are skipped wherever they stand. *)
Lemma fold_values_filter vs acc :
  fold_left (fun acc v =>
    match to_str v with
    | Some s => match parse s with Some p => merge_into acc p | None => acc end
    | None => acc
    end) vs acc =
  fold_left merge_into
    (flat_map (fun v => match to_str v with
                        | Some s => match parse s with Some p => [p] | None => [] end
                        | None => [] end) vs) acc.
Proof.
  revert acc. induction vs as [|v vs IH]; intro acc; [reflexivity|].
  cbn [fold_left flat_map]. rewrite fold_left_app, IH.
  destruct (to_str v) as [h|]; [|reflexivity]. destruct (parse h); reflexivity.
Qed.

Lemma flat_map_perm {A B} (f : A -> list B) l l' :
  Permutation l l' -> Permutation (flat_map f l) (flat_map f l').
Proof.
  induction 1; simpl.
  - constructor.
  - apply Permutation_app_head; assumption.
  - rewrite !app_assoc. apply Permutation_app_tail, Permutation_app_comm.
  - etransitivity; eassumption.
Qed.

Lemma finalize_order a a' s s' vs vs' force total :
  aget "cache-control" a = Some (s, vs) -> aget "cache-control" a' = Some (s', vs') ->
  Permutation vs vs' ->
  aget "cache-control" (finalize a force total) = aget "cache-control" (finalize a' force total).
Proof.
  intros Ha Ha' P. unfold finalize. rewrite Ha, Ha'.
  destruct force; [rewrite !aget_aset; reflexivity|].
  unfold fold_values. rewrite !fold_values_filter.
  set (ps := flat_map _ vs). set (ps' := flat_map _ vs').
  assert (Q : Permutation ps ps') by (apply flat_map_perm, P).
  rewrite (Permutation_length P).
  assert (C : forall qs, qs <> [] -> exists m, fold_left merge_into qs None = Some m /\ closed qs m).
  { intros [|q qs] Hq; [congruence|]. cbn [fold_left merge_into].
    apply (fold_merge_closed qs [q] q); [|discriminate].
    split.
    - unfold any_poison; cbn [existsb]. rewrite orb_false_r. reflexivity.
    - intros _. unfold all_public, any_mr, min_age. cbn [forallb existsb fold_right].
      rewrite andb_true_r, orb_false_r, omin_none_r. auto. }
  destruct ps as [|p ps].
  - apply Permutation_nil in Q. rewrite Q. cbn [fold_left].
    rewrite !aget_aremove. reflexivity.
  - destruct (C (p :: ps)) as [m [E1 C1]]; [discriminate|].
    destruct (C ps') as [m' [E2 C2]].
    { intro Z. rewrite Z in Q. apply Permutation_sym, Permutation_nil in Q. discriminate. }
    rewrite E1, E2. cbv zeta. rewrite !aget_aset, String.eqb_refl.
    rewrite (closed_prints _ _ _ C1), (closed_prints _ _ _ C2).
    unfold result_cc, any_poison, all_public, any_mr.
    rewrite (existsb_perm poisoned _ _ Q), (existsb_perm must_revalidate _ _ Q),
      (forallb_perm is_public _ _ Q), (min_age_perm _ _ Q). reflexivity.
Qed.

Lemma finalize_others a force total n : n <> "cache-control" ->
  aget n (finalize a force total) = aget n a.
Proof.
  intro H. apply String.eqb_neq in H. unfold finalize.
  destruct (aget "cache-control" a) as [[s vs]|]; [|reflexivity].
  destruct force; [rewrite aget_aset, H; reflexivity|].
  destruct (fold_values vs); [rewrite aget_aset, H|rewrite aget_aremove, H]; reflexivity.
Qed.

(** [r] is the Cache-Control value the aggregator holds for the client after
    [finalize] (no error, not a mutation, [total] subgraph responses). *)
Definition client_header (a : agg) (total : nat) (r : string) : Prop :=
  aget "cache-control" (finalize a false total) = Some (Last, [r]).

Lemma client_header_is a s vs total r :
  aget "cache-control" a = Some (s, vs) -> vs <> [] -> Forall understood vs ->
  client_header a total r ->
  r = to_header_value (result_cc (map summary vs) (Nat.ltb (List.length vs) total)).
Proof.
  intros Ha Hne Hu H. unfold client_header in H. rewrite (main_entry a s vs total Ha Hne Hu) in H.
  inversion H. reflexivity.
Qed.

Lemma in_ne {A} (v : A) vs : In v vs -> vs <> [].
Proof. destruct vs; [intros []|discriminate]. Qed.

Lemma c21_exists a s vs total : aget "cache-control" a = Some (s, vs) -> vs <> [] -> Forall understood vs ->
  exists r, client_header a total r.
Proof. intros Ha Hne Hu. eexists. apply (main_entry a s vs total Ha Hne Hu). Qed.

Lemma c21_forbids a s vs total r : aget "cache-control" a = Some (s, vs) -> Forall understood vs ->
  client_header a total r -> forall v, In v vs -> forbids v ->
  directives r = [("no-store", None); ("no-cache", None)].
Proof.
  intros Ha Hu H v Hv Hf. rewrite (client_header_is a s vs total r Ha (in_ne v vs Hv) Hu H).
  eapply main_forbids; eauto.
Qed.

Lemma c21_public a s vs total r : aget "cache-control" a = Some (s, vs) -> vs <> [] -> Forall understood vs ->
  client_header a total r -> says "public" r ->
  total <= List.length vs /\ forall v, In v vs -> says "public" v.
Proof.
  intros Ha Hne Hu H. rewrite (client_header_is a s vs total r Ha Hne Hu H). apply main_public.
Qed.

Lemma c21_age a s vs total r : aget "cache-control" a = Some (s, vs) -> Forall understood vs ->
  Forall one_max_age vs -> client_header a total r ->
  forall v m, In v vs -> says_max_age m v ->
    (forall n, says_max_age n r -> (n <= m)%N) /\
    ((exists n, says_max_age n r) \/ directives r = [("no-store", None); ("no-cache", None)]).
Proof.
  intros Ha Hu H1 H v m Hv Hm. rewrite (client_header_is a s vs total r Ha (in_ne v vs Hv) Hu H). split.
  - intros n Hn. eapply main_age_upper; eauto.
  - destruct (main_age_present vs total v m H1 Hv Hm) as [[n (_ & Hn & _)]|E]; [left; eauto|right; exact E].
Qed.

Lemma c21_mr a s vs total r : aget "cache-control" a = Some (s, vs) -> Forall understood vs ->
  client_header a total r -> forall v, In v vs -> says "must-revalidate" v ->
  says "must-revalidate" r \/ directives r = [("no-store", None); ("no-cache", None)].
Proof.
  intros Ha Hu H v Hv Hs. rewrite (client_header_is a s vs total r Ha (in_ne v vs Hv) Hu H).
  eapply main_mr; eauto.
Qed.

Lemma c21_force a s vs total : aget "cache-control" a = Some (s, vs) ->
  aget "cache-control" (finalize a true total) = Some (Last, ["no-store, no-cache, must-revalidate"]).
Proof. intro Ha. unfold finalize. rewrite Ha, aget_aset. reflexivity. Qed.
