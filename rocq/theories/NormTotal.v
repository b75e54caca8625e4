From Coq Require Import String List Bool Arith Lia Permutation Relations.
From Verif Require Import StrOrd StrUtil Ast CoerceModel CoerceProofs QplanModel QplanGroup CondModel NormModel NormSpec NormProofs NormMeaning NormTyped NormPasses NormDocs.
Import ListNotations.
Local Open Scope list_scope.

(** * Heights *)
Fixpoint height (s : nsel) : nat :=
  match s with
  | NField _ _ _ _ sub => S (fold_right (fun x n => Nat.max (height x) n) 0 sub)
  | NSpread _ _ => 1
  | NInline _ _ sub => S (fold_right (fun x n => Nat.max (height x) n) 0 sub)
  end.
Definition heights (l : list nsel) : nat := fold_right (fun x n => Nat.max (height x) n) 0 l.
Lemma height_field al n args dirs sub : height (NField al n args dirs sub) = S (heights sub).
Proof. reflexivity. Qed.
Lemma height_inline tc dirs sub : height (NInline tc dirs sub) = S (heights sub).
Proof. reflexivity. Qed.
Lemma height_pos s : 1 <= height s.
Proof. destruct s; cbn; lia. Qed.
Lemma heights_le l b : heights l <= b <-> forall x, In x l -> height x <= b.
Proof.
  unfold heights. induction l as [|y l IH]; cbn [fold_right].
  - split; [intros _ x []|lia].
  - split.
    + intros H x [<-|Hx]; [lia|]. apply IH; [lia|exact Hx].
    + intros H. assert (height y <= b) by (apply H; left; reflexivity).
      assert (fold_right (fun x n => Nat.max (height x) n) 0 l <= b) by (apply IH; intros x Hx; apply H; right; exact Hx). lia.
Qed.
Lemma heights_in l x : In x l -> height x <= heights l.
Proof. intros H. apply (proj1 (heights_le l (heights l))); [lia|exact H]. Qed.

(** * Totality of loops *)
Lemma each_total k l (P : nsel -> Prop) :
  (forall s, In s l -> exists o, k s = Ok o /\ forall x, In x o -> P x) ->
  exists out, each k l = Ok out /\ forall x, In x out -> P x.
Proof.
  induction l as [|s l IH]; intros H; [exists []; split; [reflexivity|intros x []]|].
  destruct (H s (or_introl eq_refl)) as (o & Eo & Po). destruct IH as (r & Er & Pr); [intros y Hy; apply H; right; exact Hy|].
  exists (o ++ r). split; [change (each k (s :: l)) with (bind (k s) (fun a => bind (each k l) (fun b => Ok (a ++ b)))); rewrite Eo, Er; reflexivity|].
  intros x Hx; apply in_app_or in Hx as [Hx|Hx]; auto.
Qed.
Lemma each_sub_total k l (P : nsel -> Prop) :
  (forall s, In s l -> exists o, k s = Ok o /\ forall x, In x o -> P x) ->
  exists out, each_sub k l = Ok out /\ forall x, In x out -> P x.
Proof.
  induction l as [|s l IH]; intros H; [exists []; split; [reflexivity|intros x []]|].
  destruct (H s (or_introl eq_refl)) as (o & Eo & Po). destruct IH as (r & Er & Pr); [intros y Hy; apply H; right; exact Hy|].
  exists (o ++ r). split; [cbn; rewrite Eo; cbn; rewrite Er; reflexivity|].
  intros x Hx; apply in_app_or in Hx as [Hx|Hx]; auto.
Qed.
Lemma each_obj_total k l (P : nsel -> Prop) :
  (forall s, In s l -> exists o, k s = Ok o /\ forall x, In x o -> P x) ->
  exists out, each_obj k l = Ok out /\ forall x, In x out -> P x.
Proof.
  induction l as [|s l IH]; intros H; [exists []; split; [reflexivity|intros x []]|].
  destruct (H s (or_introl eq_refl)) as (o & Eo & Po). destruct IH as (r & Er & Pr); [intros y Hy; apply H; right; exact Hy|].
  exists (o ++ r). split; [cbn; rewrite Eo; cbn; rewrite Er; reflexivity|].
  intros x Hx; apply in_app_or in Hx as [Hx|Hx]; auto.
Qed.
Lemma each_one_total k l (P : nsel -> Prop) :
  (forall s, In s l -> exists o, k s = Ok o /\ P o) ->
  exists out, each_one k l = Ok out /\ forall x, In x out -> P x.
Proof.
  induction l as [|s l IH]; intros H; [exists []; split; [reflexivity|intros x []]|].
  destruct (H s (or_introl eq_refl)) as (o & Eo & Po). destruct IH as (r & Er & Pr); [intros y Hy; apply H; right; exact Hy|].
  exists (o :: r). split; [change (each_one k (s :: l)) with (bind (k s) (fun a => bind (each_one k l) (fun b => Ok (a :: b)))); rewrite Eo, Er; reflexivity|].
  intros x [<-|Hx]; auto.
Qed.

(** Fragments without a type condition are gone, except below introspection fields. *)
Fixpoint conditioned (s : nsel) : bool :=
  match s with
  | NField _ n _ _ sub => introspective n || forallb conditioned sub
  | NSpread _ _ => true
  | NInline (Some _) _ sub => forallb conditioned sub
  | NInline None _ _ => false
  end.

Section Total.
Context (sc : schema) (OK : schema_ok sc) (narrows : string -> string -> Prop) (N : narrowing sc narrows).
Context (F : forall t f u, field_in sc t f u -> known sc u).
Notation fits := (fits sc []).
Notation known := (known sc).

Lemma fits_narrow t u s : fits t s -> narrows u t -> fits u s.
Proof.
  intros H. revert u. induction H as [t al n args dirs sub Hi|t al n args dirs sub w Hf Hs IH|t c dirs sub Hk Hs IH|t dirs sub Hs IH|t n dirs Hd]; intros u Hu.
  - apply fits_meta; exact Hi.
  - destruct (nr_field _ _ N _ _ _ _ Hu Hf) as (w' & Hf' & Hw). eapply fits_field; [exact Hf'|]. intros s Hs'. apply IH; auto.
  - apply fits_cond; auto.
  - apply fits_bare. intros s Hs'. apply IH; auto.
  - destruct Hd as (f & Hf); discriminate.
Qed.
Lemma known_get t : known t -> exists d, get_type sc t = Ok d /\ kget t sc = Some d.
Proof. intros (d & Hd). exists d. unfold get_type. rewrite Hd. auto. Qed.
Lemma field_get pname p n u : kget pname sc = Some p -> field_in sc pname n u -> field_type pname p n = Ok u.
Proof. intros Hp (d & Hd & Hu). rewrite Hp in Hd; injection Hd as <-. unfold field_type. rewrite Hu. reflexivity. Qed.
Lemma possible_get t d : kget t sc = Some d -> is_abstract d = true ->
  exists ts, possible_or_err sc t = Ok ts /\ forall x, In x ts <-> runtime sc t x.
Proof.
  intros Ht Ha. destruct (possible_some sc _ _ Ht Ha) as (ts & Hts). exists ts. unfold possible_or_err. rewrite Hts.
  split; [reflexivity|]. intros x; apply (possible_spec sc OK _ _ _ Hts).
Qed.

Definition fine (b : nat) (t : string) (s : nsel) : Prop := fits t s /\ conditioned s = true /\ height s <= b.
Definition allowed (c : bool) (l : list nsel) : Prop := c = true -> forallb conditioned l = true.
Definition good (h : string -> tdef -> list nsel -> res (list nsel)) (H B : nat) (c : bool) : Prop :=
  forall pname p l, kget pname sc = Some p -> (forall x, In x l -> fits pname x) -> heights l <= H -> allowed c l ->
  exists out, h pname p l = Ok out /\ forall x, In x out -> fine B pname x.

Lemma fine_sub B t out : (forall x, In x out -> fine B t x) ->
  (forall x, In x out -> fits t x) /\ forallb conditioned out = true /\ heights out <= B.
Proof.
  intros H. split; [intros x Hx; apply (H x Hx)|]. split; [apply forallb_forall; intros x Hx; apply (H x Hx)|].
  apply heights_le. intros x Hx; apply (H x Hx).
Qed.
Lemma fine_inline B t u dirs out : known u -> (forall x, In x out -> fine B u x) -> fine (S B) t (NInline (Some u) dirs out).
Proof.
  intros Hk H. apply fine_sub in H as (H1 & H2 & H3). split; [apply fits_cond; auto|]. split; [exact H2|].
  rewrite height_inline. lia.
Qed.
Lemma fine_le B B' t s : B <= B' -> fine B t s -> fine B' t s.
Proof. intros Hb (H1 & H2 & H3). split; [exact H1|split; [exact H2|lia]]. Qed.
Lemma unless_empty_all l s (P : nsel -> Prop) : P s -> forall x, In x (unless_empty l s) -> P x.
Proof. intros H x. unfold unless_empty. destruct (empty l); [intros []|intros [<-|[]]; exact H]. Qed.
Lemma allowed_in c l s : allowed c l -> In s l -> c = true -> conditioned s = true.
Proof. intros H Hs Hc. specialize (H Hc). rewrite forallb_forall in H; auto. Qed.

Lemma frags_for_fits obj t items dirs sub H c : runtime sc t obj ->
  (forall x, In x items -> fits t x) -> heights items <= H -> allowed c items ->
  In (dirs, sub) (frags_for sc obj items) ->
  (forall x, In x sub -> fits obj x) /\ heights sub <= H /\ allowed c sub.
Proof.
  intros Hr Hf Hh Hc Hin. apply in_flat_map in Hin as (s & Hs & Hin).
  destruct s as [al n args dirs0 sub0|n dirs0|tc dirs0 sub0]; try destruct Hin.
  destruct (applies_to_object sc tc obj) eqn:Ea; [|destruct Hin]. destruct Hin as [E|[]]; injection E as -> ->.
  split; [|split].
  - assert (forall st, st_type st = obj -> applies sc tc [st]) as Happ.
    { intros st E. apply (applies_to_object_ok sc OK tc obj st []); [apply Hr|exact E|exact Ea]. }
    specialize (Happ (mkstep obj "" "" []) eq_refl). cbn in Happ.
    pose proof (Hf _ Hs) as Hfit. inversion Hfit as [| |? c0 ? ? Hk Hsub|? ? ? Hsub|]; subst; intros x Hx.
    + eapply fits_narrow; [apply Hsub; exact Hx|]. apply (nr_object _ _ N). split; [apply Hr|exact Happ].
    + eapply fits_narrow; [apply Hsub; exact Hx|]. apply (nr_object _ _ N). exact Hr.
  - pose proof (heights_in _ _ Hs) as Hi. rewrite height_inline in Hi. lia.
  - intros Ec. pose proof (allowed_in _ _ _ Hc Hs Ec) as Hi. cbn in Hi. destruct tc; [exact Hi|discriminate].
Qed.
Lemma expand_for_total h H B c dirs items t obj pname :
  good h H B c -> runtime sc t obj -> (forall x, In x items -> fits t x) -> heights items <= H -> allowed c items ->
  exists out, expand_for sc h dirs items obj = Ok out /\ forall x, In x out -> fine (S (S B)) pname x.
Proof.
  intros Hg Hr Hf Hh Hc. assert (known obj) as Hk by (destruct Hr as [(fs & is & Ho) _]; eexists; exact Ho).
  destruct (known_get _ Hk) as (d & Ed & Hd). unfold expand_for. rewrite Ed. cbn [bind].
  assert (forall x, In x (filter is_field items) -> fits obj x) as Hinh.
  { intros x Hx. apply filter_In in Hx as [Hx _]. eapply fits_narrow; [apply Hf; exact Hx|apply (nr_object _ _ N); exact Hr]. }
  assert (heights (filter is_field items) <= H) as Hinhh.
  { apply heights_le. intros x Hx. apply filter_In in Hx as [Hx _]. apply heights_in in Hx. lia. }
  assert (allowed c (filter is_field items)) as Hinhc.
  { intros Ec. apply forallb_forall. intros x Hx. apply filter_In in Hx as [Hx _]. eapply allowed_in; eauto. }
  destruct (existsb (fun s => negb (empty (fst s))) (frags_for sc obj items)).
  - destruct (Hg obj d _ Hd Hinh Hinhh Hinhc) as (l & El & Pl). rewrite El. cbn [bind].
    destruct (each_sub_total (fun '(own, sub) =>
               bind (h obj d sub) (fun sub' =>
               Ok (unless_empty sub'
                     (match merge_directives dirs own with
                      | Some more => NInline (Some obj) (own ++ more) sub'
                      | None => NInline (Some obj) dirs [NInline (Some obj) own sub']
                      end)))) (frags_for sc obj items) (fine (S (S B)) pname)) as (ls & Els & Pls).
    + intros [own sub] Hin. destruct (frags_for_fits _ _ _ _ _ _ _ Hr Hf Hh Hc Hin) as (H1 & H2 & H3).
      destruct (Hg obj d _ Hd H1 H2 H3) as (sub' & Es & Ps). rewrite Es. cbn [bind]. eexists; split; [reflexivity|].
      apply unless_empty_all. destruct (merge_directives dirs own).
      * eapply fine_le; [|apply fine_inline; [exact Hk|exact Ps]]. lia.
      * apply fine_inline; [exact Hk|]. intros x [<-|[]]. apply fine_inline; [exact Hk|exact Ps].
    + rewrite Els. cbn [bind]. eexists; split; [reflexivity|]. intros x Hx. apply in_app_or in Hx as [Hx|Hx]; [|auto].
      revert x Hx. apply unless_empty_all. eapply fine_le; [|apply fine_inline; [exact Hk|exact Pl]]. lia.
  - destruct (Hg obj d (filter is_field items ++ flat_map snd (frags_for sc obj items)) Hd) as (l & El & Pl).
    + intros x Hx. apply in_app_or in Hx as [Hx|Hx]; [auto|]. apply in_flat_map in Hx as ([own sub] & Hin & Hx).
      apply (frags_for_fits _ _ _ _ _ _ _ Hr Hf Hh Hc Hin). exact Hx.
    + apply heights_le. intros x Hx. apply in_app_or in Hx as [Hx|Hx]; [apply heights_in in Hx; lia|].
      apply in_flat_map in Hx as ([own sub] & Hin & Hx). cbn in Hx.
      destruct (frags_for_fits _ _ _ _ _ _ _ Hr Hf Hh Hc Hin) as (_ & H2 & _). apply heights_in in Hx. lia.
    + intros Ec. rewrite forallb_app, (Hinhc Ec). cbn. apply forallb_forall. intros x Hx.
      apply in_flat_map in Hx as ([own sub] & Hin & Hx). cbn in Hx.
      destruct (frags_for_fits _ _ _ _ _ _ _ Hr Hf Hh Hc Hin) as (_ & _ & H3). eapply allowed_in; eauto.
    + rewrite El. cbn [bind]. eexists; split; [reflexivity|]. apply unless_empty_all.
      eapply fine_le; [|apply fine_inline; [exact Hk|exact Pl]]. lia.
Qed.
Lemma expand_abstract_total h H B c dirs items pname p tc d :
  good h H B c -> kget pname sc = Some p -> kget tc sc = Some d -> is_abstract d = true ->
  (forall x, In x items -> fits tc x) -> heights items <= H -> allowed c items ->
  exists out, expand_abstract sc h pname p tc dirs items = Ok out /\ forall x, In x out -> fine (S (S B)) pname x.
Proof.
  intros Hg Hp Hd Ha Hf Hh Hc. unfold expand_abstract.
  destruct (possible_get _ _ Hd Ha) as (ts & Ets & Hts). rewrite Ets. cbn [bind].
  assert (exists ps, (if is_abstract p then possible_or_err sc pname else Ok [pname]) = Ok ps) as (ps & Eps).
  { destruct (is_abstract p) eqn:E; [|eauto]. destruct (possible_get _ _ Hp E) as (ps & Eps & _). eauto. }
  rewrite Eps. cbn [bind]. apply each_obj_total. intros obj Hobj.
  eapply Permutation_in in Hobj; [|apply Permutation_sym, sort_by_perm]. apply filter_In in Hobj as [Hobj _].
  eapply expand_for_total; eauto. apply Hts; exact Hobj.
Qed.
Lemma flatten_sel_total h H B B2 c pname p s :
  good h H B c -> (c = false -> good h B B2 true) -> B <= B2 \/ c = true ->
  kget pname sc = Some p -> fits pname s -> height s <= S H -> (c = true -> conditioned s = true) ->
  exists out, flatten_sel sc h pname p s = Ok out /\
    forall x, In x out -> fine (if c then Nat.max (S H) (S (S B)) else Nat.max (S H) (S (S B2))) pname x.
Proof.
  intros Hg Hg2 HB Hp Hf Hh Hc.
  set (M := if c then Nat.max (S H) (S (S B)) else Nat.max (S H) (S (S B2))).
  assert (S (S B) <= M /\ S H <= M /\ (c = false -> S (S B2) <= M)) as (HM & HM2 & HM3)
    by (subst M; destruct c; split; try lia; split; try lia; congruence).
  destruct Hf as [t al n args dirs sub Hi|t al n args dirs sub w Hw Hs|t k dirs sub Hk Hs|t dirs sub Hs|t n dirs Hd].
  - cbn [flatten_sel]. rewrite Hi. cbn [orb]. eexists; split; [reflexivity|]. intros x [<-|[]].
    split; [apply fits_meta; exact Hi|]. split; [cbn; rewrite Hi; reflexivity|lia].
  - cbn [flatten_sel]. destruct (introspective n || empty sub) eqn:Ei.
    + eexists; split; [reflexivity|]. intros x [<-|[]]. split; [eapply fits_field; eauto|]. split; [|lia].
      cbn. destruct (introspective n); [reflexivity|]. cbn in Ei. apply empty_nil in Ei; subst; reflexivity.
    + apply orb_false_iff in Ei as [Ei _]. rewrite (field_get _ _ _ _ Hp Hw). cbn [bind].
      destruct (known_get w (F _ _ _ Hw)) as (d & Ed & Hd). rewrite Ed. cbn [bind].
      destruct (Hg w d sub Hd Hs) as (sub' & Es & Ps).
      * rewrite height_field in Hh. lia.
      * intros Ec. specialize (Hc Ec). cbn in Hc. rewrite Ei in Hc. exact Hc.
      * rewrite Es. cbn [bind]. eexists; split; [reflexivity|]. intros x [<-|[]]. apply fine_sub in Ps as (P1 & P2 & P3).
        split; [eapply fits_field; eauto|]. split; [cbn; rewrite P2; apply orb_true_r|]. rewrite height_field. lia.
  - cbn [flatten_sel]. rewrite height_inline in Hh. destruct (String.eqb_spec k t) as [->|Hne].
    + destruct (Hg t p sub Hp Hs) as (sub' & Es & Ps); [lia|exact Hc|]. rewrite Es. cbn [bind].
      eexists; split; [reflexivity|]. destruct (empty dirs).
      * intros x Hx. eapply fine_le; [|apply Ps; exact Hx]. lia.
      * intros x [<-|[]]. eapply fine_le; [|apply fine_inline; [exact Hk|exact Ps]]. lia.
    + unfold expand_condition. destruct (known_get k Hk) as (d & Ed & Hd). rewrite Ed. cbn [bind].
      destruct (is_abstract d) eqn:Ea.
      * destruct (expand_abstract_total h H B c dirs sub t p k d Hg Hp Hd Ea Hs) as (out & Eo & Po); [lia|exact Hc|].
        exists out; split; [exact Eo|]. intros x Hx; eapply fine_le; [|apply Po; exact Hx]. lia.
      * destruct (is_object d); [|exists []; split; [reflexivity|intros x []]].
        destruct (is_object p && negb (String.eqb t k)); [exists []; split; [reflexivity|intros x []]|].
        destruct (Hg k d sub Hd Hs) as (sub' & Es & Ps); [lia|exact Hc|]. rewrite Es. cbn [bind].
        eexists; split; [reflexivity|]. intros x [<-|[]]. eapply fine_le; [|apply fine_inline; [exact Hk|exact Ps]]. lia.
  - cbn [flatten_sel]. rewrite height_inline in Hh.
    assert (c = false) as -> by (destruct c; [specialize (Hc eq_refl); discriminate|reflexivity]).
    specialize (Hg2 eq_refl). specialize (HM3 eq_refl). destruct HB as [HB|HB]; [|discriminate].
    destruct (Hg t p sub Hp Hs) as (sub' & Es & Ps); [lia|intros E; discriminate|]. rewrite Es. cbn [bind].
    destruct (empty dirs).
    + eexists; split; [reflexivity|]. intros x Hx. eapply fine_le; [|apply Ps; exact Hx]. lia.
    + destruct (is_abstract p) eqn:Ea.
      * apply fine_sub in Ps as (P1 & P2 & P3).
        destruct (expand_abstract_total h B B2 true dirs sub' t p t p Hg2 Hp Hp Ea P1 P3 (fun _ => P2)) as (out & Eo & Po).
        exists out; split; [exact Eo|]. intros x Hx; eapply fine_le; [|apply Po; exact Hx]. lia.
      * eexists; split; [reflexivity|]. intros x [<-|[]]. eapply fine_le; [|apply fine_inline; [eexists; exact Hp|exact Ps]]. lia.
  - destruct Hd as (f & Hf); discriminate.
Qed.
Lemma flatten_conditioned H : forall fuel, H < fuel -> good (flatten sc fuel) H (2 * H) true.
Proof.
  induction H as [|H IH]; intros [|fuel] Hl pname p l Hp Hf Hh Hc; try lia; cbn [flatten].
  - assert (l = []) as ->.
    { destruct l as [|x l]; [reflexivity|]. pose proof (heights_in (x :: l) x (or_introl eq_refl)). pose proof (height_pos x). lia. }
    exists []; split; [reflexivity|intros x []].
  - apply each_total. intros s Hs.
    destruct (flatten_sel_total (flatten sc fuel) H (2 * H) 0 true pname p s) as (o & Eo & Po); auto.
    + apply IH; lia.
    + discriminate.
    + apply heights_in in Hs; lia.
    + intros _. eapply allowed_in; eauto.
    + exists o; split; [exact Eo|]. intros x Hx; eapply fine_le; [|apply Po; exact Hx]. lia.
Qed.
Fixpoint grown (h : nat) : nat := match h with O => 0 | S h' => 2 * grown h' + 2 end.
Fixpoint enough (h : nat) : nat := match h with O => 1 | S h' => S (enough h' + grown h' + 1) end.
Lemma grown_le h : h <= grown h.
Proof. induction h; cbn; lia. Qed.
Lemma flatten_any H : forall fuel, enough H <= fuel -> good (flatten sc fuel) H (grown H) false.
Proof.
  induction H as [|H IH]; intros [|fuel] Hl pname p l Hp Hf Hh Hc; try (cbn [enough] in Hl; lia); cbn [flatten].
  - assert (l = []) as ->.
    { destruct l as [|x l]; [reflexivity|]. pose proof (heights_in (x :: l) x (or_introl eq_refl)). pose proof (height_pos x). lia. }
    exists []; split; [reflexivity|intros x []].
  - cbn [enough] in Hl. apply each_total. intros s Hs. pose proof (grown_le H).
    destruct (flatten_sel_total (flatten sc fuel) H (grown H) (2 * grown H) false pname p s) as (o & Eo & Po); auto.
    + apply IH; lia.
    + intros _. apply flatten_conditioned. lia.
    + left; lia.
    + apply heights_in in Hs; lia.
    + discriminate.
    + exists o; split; [exact Eo|]. intros x Hx; eapply fine_le; [|apply Po; exact Hx]. cbn [grown]. lia.
Qed.

(** * The other passes *)
Definition ok_at (b : nat) (t : string) (s : nsel) : Prop := fits t s /\ height s <= b.
Lemma ok_list b t l : (forall x, In x l -> ok_at b t x) -> (forall x, In x l -> fits t x) /\ heights l <= b.
Proof. intros H. split; [intros x Hx; apply (H x Hx)|]. apply heights_le. intros x Hx; apply (H x Hx). Qed.

Section Expand.
Context (should_expand : string -> string -> bool).
Notation expand_sel := (expand_sel sc should_expand).
Lemma expansion_total pname p : kget pname sc = Some p ->
  exists objs, expansion sc pname p = Ok objs /\ forall ts, objs = Some ts -> forall x, In x ts -> runtime sc pname x.
Proof.
  intros Hp. unfold expansion. destruct p as [fs is|gs|ms|]; try (eexists; split; [reflexivity|discriminate]).
  destruct (possible_get _ _ Hp eq_refl) as (ts & Ets & Hts). rewrite Ets. cbn [bind].
  assert (all_objects sc ts = Ok tt) as ->.
  { assert (forall x, In x ts -> runtime sc pname x) as H by (intros x; apply Hts). clear - H.
    induction ts as [|t ts IH]; [reflexivity|]. cbn [all_objects].
    destruct (H t (or_introl eq_refl)) as [(fs & is & Ho) _]. rewrite Ho. apply IH. intros x Hx; apply H; right; exact Hx. }
  cbn [bind]. eexists; split; [reflexivity|]. intros ts' E; injection E as <-. intros x; apply Hts.
Qed.
Lemma expand_sel_total s : forall pname p objs, kget pname sc = Some p -> expansion sc pname p = Ok objs ->
  (forall ts, objs = Some ts -> forall x, In x ts -> runtime sc pname x) -> fits pname s ->
  exists out, expand_sel pname p objs s = Ok out /\ forall x, In x out -> ok_at (2 * height s) pname x.
Proof.
  induction s as [al n args dirs sub IH|n dirs|tc dirs sub IH] using nsel_ind';
    intros pname p objs Hp He Ho Hf; try rewrite Forall_forall in IH.
  - assert (forall t d, kget t sc = Some d -> (forall x, In x sub -> fits t x) ->
      exists o, expand_all sc should_expand t d sub = Ok o /\ forall x, In x o -> ok_at (2 * heights sub) t x) as Hall.
    { intros t d Hd Hs. unfold expand_all. destruct (expansion_total t d Hd) as (objs' & E' & H'). rewrite E'. cbn [bind].
      apply each_total. intros s Hs'. destruct (IH s Hs' t d objs' Hd E' H' (Hs s Hs')) as (o & Eo & Po).
      exists o; split; [exact Eo|]. intros x Hx. destruct (Po x Hx) as [P1 P2]. split; [exact P1|]. apply heights_in in Hs'. lia. }
    rewrite expand_sel_field. rewrite height_field. destruct (introspective n) eqn:Ei.
    { eexists; split; [reflexivity|]. intros x [<-|[]]. split; [exact Hf|]. rewrite height_field. lia. }
    inversion Hf as [|? ? ? ? ? ? w Hw Hs| | |]; subst; [congruence|].
    rewrite (field_get _ _ _ _ Hp Hw). cbn [bind].
    destruct (if should_expand pname n then objs else None) as [ts|] eqn:Ex.
    + assert (objs = Some ts) as -> by (destruct (should_expand pname n); congruence).
      apply each_obj_total. intros obj Hobj. eapply Permutation_in in Hobj; [|apply Permutation_sym, sort_by_perm].
      pose proof (Ho _ eq_refl _ Hobj) as Hr.
      destruct (nr_field _ _ N _ _ _ _ (nr_object _ _ N _ _ Hr) Hw) as (w' & Hw' & Hn).
      assert (known obj) as Hk by (destruct Hr as [(fs & is & Hob) _]; eexists; exact Hob).
      assert (exists sub', (if empty sub then Ok sub
              else match kget n (object_fields sc obj) with
                   | Some u => bind (get_type sc u) (fun d => expand_all sc should_expand u d sub)
                   | None => Ok sub
                   end) = Ok sub' /\ forall x, In x sub' -> ok_at (2 * heights sub) w' x) as (sub' & Es & Ps).
      { destruct (empty sub) eqn:Ee.
        - apply empty_nil in Ee; subst. exists []; split; [reflexivity|intros x []].
        - destruct Hw' as (dobj & Hdo & Hw'). unfold object_fields. rewrite Hdo, Hw'.
          destruct (known_get w') as (d & Ed & Hd); [eapply F; exists dobj; eauto|]. rewrite Ed. cbn [bind].
          apply Hall; [exact Hd|]. intros x Hx. eapply fits_narrow; eauto. }
      rewrite Es. cbn [bind]. eexists; split; [reflexivity|]. intros x [<-|[]]. apply ok_list in Ps as [P1 P2].
      split; [|rewrite height_inline; unfold heights at 1; cbn [fold_right]; rewrite height_field; lia].
      apply fits_cond; [exact Hk|]. intros y [<-|[]]. eapply fits_field; eauto.
    + destruct (empty sub) eqn:Ee.
      { eexists; split; [reflexivity|]. intros x [<-|[]]. split; [exact Hf|]. rewrite height_field. lia. }
      destruct (known_get w (F _ _ _ Hw)) as (d & Ed & Hd). rewrite Ed. cbn [bind].
      destruct (Hall w d Hd Hs) as (sub' & Es & Ps). rewrite Es. cbn [bind]. eexists; split; [reflexivity|].
      intros x [<-|[]]. apply ok_list in Ps as [P1 P2]. split; [eapply fits_field; eauto|]. rewrite height_field. lia.
  - inversion Hf as [| | | |? ? ? (f & Hd)]; discriminate.
  - assert (forall t d, kget t sc = Some d -> (forall x, In x sub -> fits t x) ->
      exists o, expand_all sc should_expand t d sub = Ok o /\ forall x, In x o -> ok_at (2 * heights sub) t x) as Hall.
    { intros t d Hd Hs. unfold expand_all. destruct (expansion_total t d Hd) as (objs' & E' & H'). rewrite E'. cbn [bind].
      apply each_total. intros s Hs'. destruct (IH s Hs' t d objs' Hd E' H' (Hs s Hs')) as (o & Eo & Po).
      exists o; split; [exact Eo|]. intros x Hx. destruct (Po x Hx) as [P1 P2]. split; [exact P1|]. apply heights_in in Hs'. lia. }
    rewrite expand_sel_inline, height_inline. inversion Hf as [| |? c ? ? Hk Hs|? ? ? Hs|]; subst.
    + destruct Hk as (d & Hd). rewrite Hd. destruct (Hall c d Hd Hs) as (sub' & Es & Ps). rewrite Es. cbn [bind].
      eexists; split; [reflexivity|]. intros x [<-|[]]. apply ok_list in Ps as [P1 P2].
      split; [apply fits_cond; [eexists; exact Hd|exact P1]|]. rewrite height_inline. lia.
    + destruct (Hall pname p Hp Hs) as (sub' & Es & Ps). rewrite Es. cbn [bind].
      eexists; split; [reflexivity|]. intros x [<-|[]]. apply ok_list in Ps as [P1 P2].
      split; [apply fits_bare; exact P1|]. rewrite height_inline. lia.
Qed.
Lemma type_expand_total pname p l : kget pname sc = Some p -> (forall x, In x l -> fits pname x) ->
  exists out, type_expand sc should_expand pname p l = Ok out /\ (forall x, In x out -> fits pname x) /\ heights out <= 2 * heights l.
Proof.
  intros Hp Hf. unfold type_expand. destruct (expansion_total pname p Hp) as (objs & E & H). rewrite E. cbn [bind].
  destruct (each_total (expand_sel pname p objs) l (ok_at (2 * heights l) pname)) as (out & Eo & Po).
  - intros s Hs. destruct (expand_sel_total s pname p objs Hp E H (Hf s Hs)) as (o & Eo & Po). exists o; split; [exact Eo|].
    intros x Hx. destruct (Po x Hx) as [P1 P2]. split; [exact P1|]. apply heights_in in Hs. lia.
  - exists out; split; [exact Eo|]. apply ok_list; exact Po.
Qed.
End Expand.

(** Merging never makes a selection higher. *)
Definition shrinks (h : string -> tdef -> list nsel -> res (list nsel)) (H : nat) : Prop :=
  forall pname p l b, kget pname sc = Some p -> (forall x, In x l -> fits pname x) -> heights l <= b -> b <= H ->
  exists out, h pname p l = Ok out /\ forall x, In x out -> ok_at b pname x.
Lemma fits_child pname p tc dirs sub : kget pname sc = Some p -> fits pname (NInline tc dirs sub) ->
  exists cname c, child_type sc pname p tc = (cname, c) /\ kget cname sc = Some c /\
    (forall x, In x sub -> fits cname x) /\
    (forall dirs' sub', (forall x, In x sub' -> fits cname x) -> fits pname (NInline tc dirs' sub')) /\
    (forall dirs' sub', fits pname (NInline tc dirs' sub') -> forall x, In x sub' -> fits cname x) /\
    (forall dirs' sub', fits cname (NInline tc dirs' sub') -> forall x, In x sub' -> fits cname x).
Proof.
  intros Hp Hf. inversion Hf as [| |? c ? ? Hk Hs|? ? ? Hs|]; subst; unfold child_type.
  - pose proof Hk as (d & Hd). rewrite Hd. exists c, d. split; [reflexivity|]. split; [exact Hd|]. split; [exact Hs|].
    split; [intros; apply fits_cond; assumption|]. split; intros dirs' sub' H; inversion H; subst; assumption.
  - exists pname, p. split; [reflexivity|]. split; [exact Hp|]. split; [exact Hs|].
    split; [intros; apply fits_bare; assumption|]. split; intros dirs' sub' H; inversion H; subst; assumption.
Qed.
Lemma flatten_redundant_in b cname tc dirs l : (forall dirs' sub', fits cname (NInline tc dirs' sub') -> forall x, In x sub' -> fits cname x) ->
  (forall x, In x l -> ok_at b cname x) -> forall x, In x (flatten_redundant tc dirs l) -> ok_at b cname x.
Proof.
  intros Hc H x Hx. unfold flatten_redundant in Hx. apply in_flat_map in Hx as (s & Hs & Hx).
  destruct s as [al n args dirs' sub|n dirs'|tc' dirs' sub]; try (destruct Hx as [<-|[]]; apply H; exact Hs).
  destruct (can_flatten tc dirs tc' dirs') eqn:E; [|destruct Hx as [<-|[]]; apply H; exact Hs].
  unfold can_flatten in E. apply andb_true_iff in E as [E _]. apply tc_eqb_ok in E; subst tc'.
  destruct (H _ Hs) as [H1 H2]. split; [eapply Hc; eauto|]. rewrite height_inline in H2. apply heights_in in Hx. lia.
Qed.
Lemma merge_into_total (h : string -> tdef -> list nsel -> res (list nsel)) b cname (c : tdef) pname tc dirs items acc :
  (forall l, (forall x, In x l -> fits cname x) -> heights l <= b ->
     exists out, h cname c l = Ok out /\ forall x, In x out -> ok_at b cname x) ->
  (forall dirs' sub', (forall x, In x sub' -> fits cname x) -> fits pname (NInline tc dirs' sub')) ->
  (forall dirs' sub', fits pname (NInline tc dirs' sub') -> forall x, In x sub' -> fits cname x) ->
  (forall x, In x items -> ok_at b cname x) -> (forall x, In x acc -> ok_at (S b) pname x) ->
  exists out, merge_into (h cname c) tc dirs items acc = Ok out /\ forall x, In x out -> ok_at (S b) pname x.
Proof.
  intros Hh Hin Hout Hi. induction acc as [|s acc IH]; intros Ha; cbn [merge_into].
  - eexists; split; [reflexivity|]. intros x [<-|[]]. apply ok_list in Hi as [H1 H2]. split; [apply Hin; exact H1|].
    rewrite height_inline. lia.
  - destruct IH as (r & Er & Pr); [intros x Hx; apply Ha; right; exact Hx|].
    assert (forall s0, s0 = s -> exists out, bind (merge_into (h cname c) tc dirs items acc) (fun r => Ok (s0 :: r)) = Ok out /\
      forall x, In x out -> ok_at (S b) pname x) as Hgo.
    { intros s0 ->. rewrite Er. cbn [bind]. eexists; split; [reflexivity|]. intros x [<-|Hx]; [apply Ha; left; reflexivity|auto]. }
    destruct s as [al n args dirs' sub|n dirs'|tc' dirs' sub]; try (apply Hgo; reflexivity).
    destruct (tc_eqb tc tc' && directives_eqb dirs dirs') eqn:E; [|apply Hgo; reflexivity].
    apply andb_true_iff in E as [E _]. apply tc_eqb_ok in E; subst tc'.
    destruct (Ha _ (or_introl eq_refl)) as [A1 A2]. rewrite height_inline in A2. apply ok_list in Hi as [H1 H2].
    destruct (Hh (sub ++ items)) as (l & El & Pl).
    + intros x Hx. apply in_app_or in Hx as [Hx|Hx]; [eapply Hout; eauto|auto].
    + apply heights_le. intros x Hx. apply in_app_or in Hx as [Hx|Hx]; apply heights_in in Hx; lia.
    + rewrite El. cbn [bind]. eexists; split; [reflexivity|]. apply ok_list in Pl as [P1 P2].
      intros x [<-|Hx]; [|apply Ha; right; exact Hx]. split; [apply Hin; exact P1|]. rewrite height_inline. lia.
Qed.
Lemma merge_inline_loop_total h H b pname p l acc : shrinks h H -> b <= H -> kget pname sc = Some p ->
  (forall x, In x l -> ok_at (S b) pname x) -> (forall x, In x acc -> ok_at (S b) pname x) ->
  exists out, merge_inline_loop sc h pname p acc l = Ok out /\ forall x, In x out -> ok_at (S b) pname x.
Proof.
  intros Hh Hb Hp. revert acc. induction l as [|s l IH]; intros acc Hl Ha; cbn [merge_inline_loop]; [exists acc; auto|].
  assert (forall s', ok_at (S b) pname s' -> exists out, merge_inline_loop sc h pname p (acc ++ [s']) l = Ok out /\
     forall x, In x out -> ok_at (S b) pname x) as Hpush.
  { intros s' Hs'. apply IH; [intros x Hx; apply Hl; right; exact Hx|].
    intros x Hx. apply in_app_or in Hx as [Hx|[<-|[]]]; auto. }
  destruct (Hl s (or_introl eq_refl)) as [Hf Hh0].
  destruct s as [al n args dirs sub|n dirs|tc dirs sub].
  - destruct (introspective n || empty sub) eqn:Ei; [apply Hpush; split; assumption|].
    apply orb_false_iff in Ei as [Ei _]. inversion Hf as [|? ? ? ? ? ? w Hw Hs| | |]; subst; [congruence|].
    rewrite (field_get _ _ _ _ Hp Hw). cbn [bind]. destruct (known_get w (F _ _ _ Hw)) as (d & Ed & Hd). rewrite Ed. cbn [bind].
    rewrite height_field in Hh0.
    destruct (Hh w d sub b Hd Hs) as (sub' & Es & Ps); [lia|exact Hb|]. rewrite Es. cbn [bind]. apply Hpush.
    apply ok_list in Ps as [P1 P2]. split; [eapply fits_field; eauto|]. rewrite height_field. lia.
  - inversion Hf as [| | | |? ? ? (f & Hd)]; discriminate.
  - destruct (fits_child _ _ _ _ _ Hp Hf) as (cname & c & Ec & Hc & H1 & H2 & H3 & H4). rewrite Ec.
    rewrite height_inline in Hh0.
    destruct (Hh cname c sub b Hc H1) as (sub' & Es & Ps); [lia|exact Hb|]. rewrite Es. cbn [bind].
    destruct (merge_into_total h b cname c pname tc dirs (flatten_redundant tc dirs sub') acc) as (acc' & Ea & Pa).
    + intros l0 Hl0 Hb0. apply (Hh cname c l0 b Hc Hl0 Hb0 Hb).
    + exact H2.
    + exact H3.
    + apply flatten_redundant_in; assumption.
    + exact Ha.
    + rewrite Ea. cbn [bind]. apply IH; [intros x Hx; apply Hl; right; exact Hx|exact Pa].
Qed.
Lemma merge_inline_total H : forall fuel, H < fuel -> shrinks (merge_inline sc fuel) H.
Proof.
  induction H as [|H IH]; intros [|fuel] Hl pname p l b Hp Hf Hh Hb; try lia; cbn [merge_inline].
  - assert (l = []) as ->.
    { destruct l as [|x l]; [reflexivity|]. pose proof (heights_in (x :: l) x (or_introl eq_refl)). pose proof (height_pos x). lia. }
    exists []; split; [reflexivity|intros x []].
  - destruct b as [|b].
    + assert (l = []) as ->.
      { destruct l as [|x l]; [reflexivity|]. pose proof (heights_in (x :: l) x (or_introl eq_refl)). pose proof (height_pos x). lia. }
      exists []; split; [reflexivity|intros x []].
    + eapply merge_inline_loop_total with (H := H); [apply IH; lia|lia|exact Hp| |intros x []].
      intros x Hx. split; [auto|]. apply heights_in in Hx. lia.
Qed.

Lemma flatten_matching_heights obj l b : heights l <= b -> heights (flatten_matching obj l) <= b.
Proof.
  intros H. apply heights_le. intros x Hx. unfold flatten_matching in Hx. apply in_flat_map in Hx as (s & Hs & Hx).
  apply heights_in in Hs. destruct s as [al n args dirs sub|n dirs|tc dirs sub]; try (destruct Hx as [<-|[]]; lia).
  destruct (empty dirs && opt_is tc obj && negb (existsb is_typename sub)); [|destruct Hx as [<-|[]]; lia].
  rewrite height_inline in Hs. apply heights_in in Hx. lia.
Qed.
Lemma flatten_objects_sel_total s : forall pname p, kget pname sc = Some p -> fits pname s ->
  exists o, flatten_objects_sel sc pname p s = Ok o /\ height o <= height s.
Proof.
  induction s as [al n args dirs sub IH|n dirs|tc dirs sub IH] using nsel_ind'; intros pname p Hp Hf; try rewrite Forall_forall in IH.
  1,3: assert (forall t d, kget t sc = Some d -> (forall x, In x sub -> fits t x) ->
      exists o, flatten_objects sc t d sub = Ok o /\ heights o <= heights sub) as Hall
    by (intros t d Hd Hs; unfold flatten_objects;
        destruct (each_one_total (flatten_objects_sel sc t d) sub (fun o => height o <= heights sub)) as (o & Eo & Po);
        [intros s Hs'; destruct (IH s Hs' t d Hd (Hs s Hs')) as (o & Eo & Po); exists o; split; [exact Eo|]; apply heights_in in Hs'; lia
        |exists o; split; [exact Eo|apply heights_le; exact Po]]).
  - rewrite flatten_objects_field. destruct (introspective n || empty sub) eqn:Ei; [eexists; split; [reflexivity|lia]|].
    apply orb_false_iff in Ei as [Ei _]. inversion Hf as [|? ? ? ? ? ? w Hw Hs| | |]; subst; [congruence|].
    rewrite (field_get _ _ _ _ Hp Hw). cbn [bind]. destruct (known_get w (F _ _ _ Hw)) as (d & Ed & Hd). rewrite Ed. cbn [bind].
    destruct (Hall w d Hd Hs) as (o & Eo & Po). rewrite Eo. cbn [bind]. eexists; split; [reflexivity|].
    rewrite !height_field. destruct (is_object d); [pose proof (flatten_matching_heights w o _ Po)|]; lia.
  - destruct (fits_child _ _ _ _ _ Hp Hf) as (cname & c & Ec & Hc & H1 & _). rewrite flatten_objects_inline, Ec.
    destruct (Hall cname c Hc H1) as (o & Eo & Po). rewrite Eo. cbn [bind]. eexists; split; [reflexivity|].
    rewrite !height_inline. lia.
  - exists (NSpread n dirs). split; [reflexivity|lia].
Qed.
Lemma flatten_objects_total pname p l : kget pname sc = Some p -> (forall x, In x l -> fits pname x) ->
  exists out, flatten_objects sc pname p l = Ok out /\ heights out <= heights l.
Proof.
  intros Hp Hf. unfold flatten_objects.
  destruct (each_one_total (flatten_objects_sel sc pname p) l (fun o => height o <= heights l)) as (o & Eo & Po).
  - intros s Hs. destruct (flatten_objects_sel_total s pname p Hp (Hf s Hs)) as (o & Eo & Po). exists o; split; [exact Eo|].
    apply heights_in in Hs; lia.
  - exists o; split; [exact Eo|apply heights_le; exact Po].
Qed.
End Total.

Definition merges (h : list nsel -> res (list nsel)) (H : nat) : Prop :=
  forall l b, heights l <= b -> b <= H -> exists out, h l = Ok out /\ heights out <= b.
Lemma heights_cons x l : heights (x :: l) = Nat.max (height x) (heights l).
Proof. reflexivity. Qed.
Lemma heights_app l l' : heights (l ++ l') = Nat.max (heights l) (heights l').
Proof. induction l as [|x l IH]; [reflexivity|]. cbn [app]. rewrite !heights_cons, IH. lia. Qed.
Lemma merge_field_into_total h H b al n args dirs sub acc : merges h H -> b <= H -> heights sub <= b -> heights acc <= S b ->
  exists out, merge_field_into h al n args dirs sub acc = Ok out /\ heights out <= S b.
Proof.
  intros Hh Hb Hs. induction acc as [|s acc IH]; intros Ha; cbn [merge_field_into].
  - eexists; split; [reflexivity|]. rewrite heights_cons, height_field. cbn. lia.
  - rewrite heights_cons in Ha. destruct IH as (r & Er & Pr); [lia|].
    assert (forall s0, height s0 <= S b -> exists out, bind (merge_field_into h al n args dirs sub acc) (fun r => Ok (s0 :: r)) = Ok out /\
      heights out <= S b) as Hgo.
    { intros s0 H0. rewrite Er. cbn [bind]. eexists; split; [reflexivity|]. rewrite heights_cons. lia. }
    destruct s as [al' n' args' dirs' sub'|n' dirs'|tc' dirs' sub']; try (apply Hgo; lia).
    destruct (fields_equal al al' n n' args args' dirs dirs'); [|apply Hgo; lia].
    rewrite height_field in Ha. destruct (Hh (sub' ++ sub) b) as (l & El & Pl); [rewrite heights_app; lia|exact Hb|].
    rewrite El. cbn [bind]. eexists; split; [reflexivity|]. rewrite heights_cons, height_field. lia.
Qed.
Lemma merge_fields_loop_total h H b l acc : merges h H -> b <= H -> heights l <= S b -> heights acc <= S b ->
  exists out, merge_fields_loop h acc l = Ok out /\ heights out <= S b.
Proof.
  intros Hh Hb. revert acc. induction l as [|s l IH]; intros acc Hl Ha; cbn [merge_fields_loop]; [exists acc; auto|].
  rewrite heights_cons in Hl. destruct s as [al n args dirs sub|n dirs|tc dirs sub].
  - rewrite height_field in Hl. destruct (Hh sub b) as (sub' & Es & Ps); [lia|exact Hb|]. rewrite Es. cbn [bind].
    destruct (merge_field_into_total h H b al n args dirs sub' acc Hh Hb Ps Ha) as (acc' & Ea & Pa). rewrite Ea. cbn [bind].
    apply IH; [lia|exact Pa].
  - cbn [bind]. apply IH; [lia|exact Ha].
  - rewrite height_inline in Hl. destruct (Hh sub b) as (sub' & Es & Ps); [lia|exact Hb|]. rewrite Es. cbn [bind].
    apply IH; [lia|]. rewrite heights_app, heights_cons, height_inline. cbn. lia.
Qed.
Lemma merge_fields_total H : forall fuel, H < fuel -> merges (merge_fields fuel) H.
Proof.
  induction H as [|H IH]; intros [|fuel] Hl l b Hh Hb; try lia; cbn [merge_fields].
  - assert (l = []) as ->.
    { destruct l as [|x l]; [reflexivity|]. pose proof (heights_in (x :: l) x (or_introl eq_refl)). pose proof (height_pos x). lia. }
    exists []; split; [reflexivity|cbn; lia].
  - destruct b as [|b].
    + assert (l = []) as ->.
      { destruct l as [|x l]; [reflexivity|]. pose proof (heights_in (x :: l) x (or_introl eq_refl)). pose proof (height_pos x). lia. }
      exists []; split; [reflexivity|cbn; lia].
    + eapply merge_fields_loop_total with (H := H); [apply IH; lia|lia|exact Hh|cbn; lia].
Qed.

(** * Before inlining *)
Section Before.
Context (sc : schema).
Lemma fits_env env env' t s : (forall n, defined env n -> defined env' n) -> fits sc env t s -> fits sc env' t s.
Proof.
  intros He H. induction H; [apply fits_meta|eapply fits_field|apply fits_cond|apply fits_bare|apply fits_spread]; eauto.
Qed.
Lemma defined_map k m n : defined m n <-> defined (map_frags k m) n.
Proof.
  unfold defined. rewrite kget_map_frags. destruct (kget n m); cbn; split; intros (g & H); try discriminate; eauto.
Qed.
Lemma skipped_fits env t s : fits sc env t s -> forall x, In x (drop_skipped_sel s) -> fits sc env t x.
Proof.
  intros H. induction H as [t al n args dirs sub Hi|t al n args dirs sub w Hf Hs IH|t c dirs sub Hk Hs IH|t dirs sub Hs IH|t n dirs Hd];
    intros x; rewrite ?drop_skipped_field, ?drop_skipped_inline; try cbn [drop_skipped_sel];
    (destruct (should_keep dirs); [intros [<-|[]]|intros []]).
  - apply fits_meta; exact Hi.
  - eapply fits_field; [exact Hf|]. intros y Hy. unfold drop_skipped in Hy. apply in_flat_map in Hy as (z & Hz & Hy). eauto.
  - apply fits_cond; [exact Hk|]. intros y Hy. unfold drop_skipped in Hy. apply in_flat_map in Hy as (z & Hz & Hy). eauto.
  - apply fits_bare. intros y Hy. unfold drop_skipped in Hy. apply in_flat_map in Hy as (z & Hz & Hy). eauto.
  - apply fits_spread; exact Hd.
Qed.
Lemma sorted_fits env t s : fits sc env t s -> fits sc env t (normalize_sel s).
Proof.
  intros H. induction H as [t al n args dirs sub Hi|t al n args dirs sub w Hf Hs IH|t c dirs sub Hk Hs IH|t dirs sub Hs IH|t n dirs Hd]; cbn [normalize_sel].
  - apply fits_meta; exact Hi.
  - eapply fits_field; eauto.
  - apply fits_cond; [exact Hk|]. intros y Hy. apply in_map_iff in Hy as (z & <- & Hz). auto.
  - apply fits_bare. intros y Hy. apply in_map_iff in Hy as (z & <- & Hz). auto.
  - apply fits_spread; exact Hd.
Qed.
Lemma skipped_mentions s n : In n (flat_map mentions (drop_skipped_sel s)) -> In n (mentions s).
Proof.
  induction s as [al fn args dirs sub IH|fn dirs|tc dirs sub IH] using nsel_ind'; try rewrite Forall_forall in IH;
    rewrite ?drop_skipped_field, ?drop_skipped_inline; try cbn [drop_skipped_sel];
    (destruct (should_keep dirs); [|intros []]); cbn [flat_map mentions]; rewrite ?app_nil_r; auto.
  all: intros H; apply in_flat_mentions in H as (x & Hx & H); unfold drop_skipped in Hx; apply in_flat_map in Hx as (y & Hy & Hx);
    apply in_flat_map; exists y; split; [exact Hy|]; apply IH; [exact Hy|]; apply in_flat_map; eauto.
Qed.
Lemma sorted_mentions s : mentions (normalize_sel s) = mentions s.
Proof.
  induction s as [al fn args dirs sub IH|fn dirs|tc dirs sub IH] using nsel_ind'; cbn [normalize_sel mentions]; try reflexivity.
  induction IH as [|x l Hx Hl IHl]; cbn; [reflexivity|]. rewrite Hx, IHl. reflexivity.
Qed.
Definition prepare (l : list nsel) : list nsel := normalize_fields (drop_skipped l).
Lemma prepare_mentions l n : In n (flat_map mentions (prepare l)) -> In n (flat_map mentions l).
Proof.
  unfold prepare, normalize_fields, drop_skipped. intros H. apply in_flat_map in H as (x & Hx & H).
  apply in_map_iff in Hx as (y & <- & Hy). rewrite sorted_mentions in H. apply in_flat_map in Hy as (z & Hz & Hy).
  apply in_flat_map. exists z; split; [exact Hz|]. apply skipped_mentions. apply in_flat_map; eauto.
Qed.
Lemma prepare_fits env t l : (forall x, In x l -> fits sc env t x) -> forall x, In x (prepare l) -> fits sc env t x.
Proof.
  intros H x Hx. unfold prepare, normalize_fields, drop_skipped in Hx. apply in_map_iff in Hx as (y & <- & Hy).
  apply sorted_fits. apply in_flat_map in Hy as (z & Hz & Hy). eapply skipped_fits; eauto.
Qed.

Lemma inline_fits env body ptc t active s out :
  (forall n f, kget n env = Some f -> known sc (fr_tc f) /\ forall x, In x (fr_sels f) -> fits sc env (fr_tc f) x) ->
  (forall q u a l o, body q a l = Ok o -> (q = None \/ q = Some u) -> (forall x, In x l -> fits sc env u x) ->
     forall x, In x o -> fits sc [] u x) ->
  inline_sel env body ptc active s = Ok out -> (ptc = None \/ ptc = Some t) -> fits sc env t s ->
  forall x, In x out -> fits sc [] t x.
Proof.
  intros He Hb. revert ptc t out. induction s as [al fn args dirs sub IH|fn dirs|tc dirs sub IH] using nsel_ind';
    intros ptc t out H Hp Hf x Hx; try rewrite Forall_forall in IH.
  - rewrite inline_sel_field in H. apply bind_ok in H as (o & H & Ho); injection Ho as <-. destruct Hx as [<-|[]].
    inversion Hf as [|? ? ? ? ? ? w Hw Hs| | |]; subst; [apply fits_meta; assumption|]. eapply fits_field; [exact Hw|].
    intros y Hy. apply each_ok in H as (outs & H & ->). apply in_concat in Hy as (oy & Hoy & Hy).
    destruct (forall2_back _ _ _ _ H Hoy) as (s & Hs' & Es). eapply (IH s Hs' None w oy); eauto.
  - cbn [inline_sel] in H. apply bind_ok in H as ([[n' dirs'] d] & Hw & H). apply walk_ok in Hw as (Hd & _ & _).
    destruct (existsb (String.eqb n') active); [discriminate|]. destruct (He _ _ Hd) as [Hk Hbody].
    destruct (opt_is ptc (fr_tc d) && empty dirs') eqn:Ei.
    + apply andb_true_iff in Ei as [E1 _]. apply opt_is_true in E1. subst ptc. destruct Hp as [Hp|Hp]; [discriminate|]. injection Hp as <-.
      eapply Hb; [exact H|right; reflexivity|exact Hbody|exact Hx].
    + apply bind_ok in H as (o & H & Ho); injection Ho as <-. destruct Hx as [<-|[]]. apply fits_cond; [exact Hk|].
      eapply Hb; [exact H|right; reflexivity|exact Hbody].
  - rewrite inline_sel_inline in H. apply bind_ok in H as (o & H & Ho); injection Ho as <-. destruct Hx as [<-|[]].
    apply each_ok in H as (outs & H & ->).
    inversion Hf as [| |? c ? ? Hk Hs|? ? ? Hs|]; subst; [apply fits_cond; [exact Hk|]|apply fits_bare];
      intros y Hy; apply in_concat in Hy as (oy & Hoy & Hy); destruct (forall2_back _ _ _ _ H Hoy) as (s & Hs' & Es).
    + eapply (IH s Hs' (Some c) c oy); eauto.
    + eapply (IH s Hs' None t oy); eauto.
Qed.
Lemma inline_sels_fits env fuel ptc t active l out :
  (forall n f, kget n env = Some f -> known sc (fr_tc f) /\ forall x, In x (fr_sels f) -> fits sc env (fr_tc f) x) ->
  inline_sels env fuel ptc active l = Ok out -> (ptc = None \/ ptc = Some t) -> (forall x, In x l -> fits sc env t x) ->
  forall x, In x out -> fits sc [] t x.
Proof.
  intros He. revert ptc t active l out; induction fuel as [|fuel IH]; intros ptc t active l out H Hp Hf x Hx; cbn [inline_sels] in H; [discriminate|].
  apply each_ok in H as (outs & H & ->). apply in_concat in Hx as (o & Ho & Hx).
  destruct (forall2_back _ _ _ _ H Ho) as (s & Hs & Es). eapply inline_fits; [exact He| |exact Es|exact Hp|apply Hf; exact Hs|exact Hx].
  intros q u a l' o' E Hq Hl'. eapply IH; eauto.
Qed.
End Before.

(** * The whole pipeline *)
Lemma keep_used_incl name found ds d : In d (fst (keep_used name found ds)) -> In d ds.
Proof.
  revert found; induction ds as [|[k n s|n t s] ds IH]; intros found; cbn [keep_used]; [auto| |].
  - destruct found; [intros H; right; eapply IH; exact H|].
    destruct (match name with None => true | Some _ => same_name n name end); [|intros H; right; eapply IH; exact H].
    specialize (IH true). destruct (keep_used name true ds) as [r f]. intros [<-|H]; [left; reflexivity|right; apply IH; exact H].
  - specialize (IH found). destruct (keep_used name found ds) as [r f]. intros [<-|H]; [left; reflexivity|right; apply IH; exact H].
Qed.
Lemma map_frags_comp k k' m : map_frags k' (map_frags k m) = map_frags (fun l => k' (k l)) m.
Proof. unfold map_frags. rewrite map_map. reflexivity. Qed.
Lemma plus_incl (R R' : string -> string -> Prop) a b : (forall x y, R x y -> R' x y) ->
  clos_trans string R a b -> clos_trans string R' a b.
Proof. intros H; induction 1; [apply t_step; auto|eapply t_trans; eauto]. Qed.
Lemma prepared_edges m a b : edge (map_frags prepare m) a b -> edge m a b.
Proof.
  intros (f & Ef & Hb). rewrite kget_map_frags in Ef. destruct (kget a m) as [f0|] eqn:E; [|discriminate]. cbn in Ef.
  injection Ef as <-. cbn in Hb. exists f0; split; [exact E|]. apply prepare_mentions; exact Hb.
Qed.

Section Pipeline.
Context (sc : schema) (should_expand : string -> string -> bool) (root_type : opkind -> option string).
Lemma each_one_op k op n s root td s' : root_type op = Some root -> kget root sc = Some td -> k root td s = Ok s' ->
  each_def (on_op sc root_type k) [NOp op n s] = Ok [NOp op n s'].
Proof. intros Hr Ht Hk. cbn. rewrite Hr. unfold get_type. rewrite Ht. cbn. rewrite Hk. reflexivity. Qed.
Lemma normalize_total name ds : schema_ok sc -> complete sc -> valid sc root_type name ds ->
  exists enough_fuel, forall fuel, enough_fuel <= fuel ->
  exists out, normalize sc should_expand root_type fuel name ds = Ok out.
Proof.
  intros OK (F & narrows & N) ((k & n & s & root & Hch & Hroot & Hkn & Hfit) & Hfr & Hment & Hcyc).
  destruct (drop_unused name ds) as [d1|e] eqn:Ed1; [|apply drop_unused_err in Ed1; congruence].
  pose proof (drop_unused_ok _ _ _ Ed1) as ((d & Hd & Hop) & Hfm). rewrite Hch in Hd; injection Hd as <-.
  set (d2 := map (map_sels normalize_fields) (map (map_sels drop_skipped) d1)).
  assert (fragment_map d2 = map_frags prepare (fragment_map ds)) as Hm2.
  { subst d2. rewrite !fragment_map_sels, Hfm, map_frags_comp. reflexivity. }
  assert (exists d3, inline_doc d2 = Ok d3) as (d3 & Hd3).
  { apply inline_ok_iff. rewrite Hm2. split.
    - intros x (dd & Hdd & Hx). apply defined_map. apply Hment. subst d2. rewrite map_map in Hdd.
      apply in_map_iff in Hdd as (d0 & <- & Hd0). exists d0. split.
      + unfold drop_unused in Ed1. pose proof (keep_used_incl name false ds d0) as Hi.
        destruct (keep_used name false ds) as [r [|]]; [|discriminate]. injection Ed1 as ->. apply Hi; exact Hd0.
      + destruct d0; cbn in *; apply prepare_mentions; exact Hx.
    - intros x Hx. apply (Hcyc x). eapply plus_incl; [|exact Hx]. apply prepared_edges. }
  pose proof Hd3 as H3. apply each_def_ok, filter_forall2 in H3. subst d2. rewrite !filter_map_sels, Hop in H3. cbn [map map_sels] in H3.
  fold (prepare s) in H3. inversion H3 as [|? o ? r Ho Hr Ea Eb]; subst. inversion Hr; subst. clear H3 Hr.
  rewrite Hm2 in Ho. unfold inline_def in Ho. apply bind_ok in Ho as (s3 & Hs3 & Ho). injection Ho as <-.
  assert (forall x, In x s3 -> fits sc [] root x) as Hf3.
  { eapply inline_sels_fits; [|exact Hs3|left; reflexivity|].
    - intros x f Ef. rewrite kget_map_frags in Ef. destruct (kget x (fragment_map ds)) as [f0|] eqn:E; [|discriminate]. cbn in Ef.
      injection Ef as <-. cbn [fr_tc fr_sels]. destruct (Hfr _ _ E) as [K1 K2]. split; [exact K1|].
      intros y Hy. eapply fits_env; [|eapply prepare_fits; [exact K2|exact Hy]]. intros z; apply defined_map.
    - intros y Hy. eapply fits_env; [|eapply prepare_fits; [exact Hfit|exact Hy]]. intros z; apply defined_map. }
  destruct Hkn as (td & Htd). set (h := heights s3).
  exists (enough h + 2 * grown h + 1). intros fuel Hfuel. unfold normalize. rewrite Ed1. cbn [bind]. cbv zeta. rewrite Hd3. cbn [bind].
  unfold drop_fragments. change (fun d : ndef => match d with | NOp _ _ _ => true | NFrag _ _ _ => false end) with is_op. rewrite <- Eb.
  destruct (flatten_any sc OK narrows N F h fuel) with (pname := root) (p := td) (l := s3) as (s4 & Hs4 & P4);
    [lia|exact Htd|exact Hf3|subst h; lia|intros E; discriminate|].
  rewrite (each_one_op _ _ _ _ _ _ _ Hroot Htd Hs4). cbn [bind]. apply fine_sub in P4 as (P4 & _ & P4h).
  destruct (type_expand_total sc OK narrows N F should_expand root td s4 Htd P4) as (s5 & Hs5 & P5 & P5h).
  rewrite (each_one_op _ _ _ _ _ _ _ Hroot Htd Hs5). cbn [bind].
  destruct (merge_inline_total sc F (2 * grown h) fuel) with (pname := root) (p := td) (l := s5) (b := 2 * grown h) as (s6 & Hs6 & P6);
    [lia|exact Htd|exact P5|lia|lia|].
  rewrite (each_one_op _ _ _ _ _ _ _ Hroot Htd Hs6). cbn [bind]. apply ok_list in P6 as [P6 P6h].
  destruct (flatten_objects_total sc F root td s6 Htd P6) as (s7 & Hs7 & P7h).
  rewrite (each_one_op _ _ _ _ _ _ _ Hroot Htd Hs7). cbn [bind].
  destruct (merge_fields_total (2 * grown h) fuel) with (l := s7) (b := 2 * grown h) as (s8 & Hs8 & _); [lia|lia|lia|].
  rewrite (each_one_op (fun _ _ => merge_fields fuel) _ _ _ _ _ _ Hroot Htd Hs8). cbn [bind]. eauto.
Qed.
End Pipeline.
