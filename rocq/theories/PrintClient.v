(** Documents that were read can be written. *)
From Coq Require Import String Ascii List NArith ZArith Bool Lia Sorted.
From Verif Require Import StrOrd StrUtil Ast CondModel NormModel NormProofs JsonModel CoerceModel CoerceProofs NormTyped
  GqlModel GqlSpec GqlChars GqlText PrintModel PrintSpec PrintWrites PrintProofs PrintRead.
Import ListNotations.
Local Open Scope string_scope.
Local Open Scope list_scope.

Definition sound_token (t : dtok) : Prop := match t with DName v => Name v | DInt z => in_i64 z | _ => True end.
Lemma denotes_sound f64_of s ts ds : lexes s ts -> Forall2 (means f64_of) ts ds -> Forall sound_token ds.
Proof.
  unfold lexes. intros H. revert ds. induction H as [|i s ts H1 H2 IH|k v s ts H1 H2 H3 IH]; intros ds M.
  - inversion M; subst. constructor.
  - apply IH. exact M.
  - inversion M as [|t d ts' ds' M1 M2]; subst. constructor; [|apply IH; exact M2].
    inversion M1; subst; cbn; auto. inversion H1; subst. assumption.
Qed.
(** Insertion keeps entries and order. *)
Lemma ginsert_in k v m kv : In kv (ginsert k v m) -> kv = (k, v) \/ In kv m.
Proof.
  induction m as [|[k' v'] m IH]; cbn [ginsert]; [intros [H|[]]; auto|]. destruct (String.compare k k').
  - intros [H|H]; [auto|right; right; exact H].
  - intros [H|H]; auto.
  - intros [H|H]; [right; left; exact H|]. destruct (IH H); [auto|right; right; assumption].
Qed.
Lemma gcollect_in l kv : In kv (gcollect l) -> In kv l.
Proof.
  unfold gcollect. assert (G : forall m, In kv (fold_left (fun m kv => ginsert (fst kv) (snd kv) m) l m) -> In kv m \/ In kv l).
  { induction l as [|[k v] l IH]; intros m; cbn [fold_left]; [auto|]. intros H. apply IH in H. cbn [fst snd] in H.
    destruct H as [H|H]; [|right; right; exact H]. apply ginsert_in in H. destruct H as [->|H]; [right; left; reflexivity|auto]. }
  intros H. destruct (G [] H) as [[]|H']. exact H'.
Qed.
Lemma ginsert_sorted k v m : keys_sorted m -> keys_sorted (ginsert k v m).
Proof.
  unfold keys_sorted. induction m as [|[k' v'] m IH]; cbn [ginsert map fst]; intros H; [repeat constructor|].
  apply StronglySorted_inv in H. destruct H as [H1 H2]. destruct (String.compare k k') eqn:E; cbn [map fst].
  - apply str_compare_eq in E. subst. constructor; assumption.
  - constructor; [constructor; assumption|]. constructor; [exact E|]. eapply Forall_impl; [|exact H2]. intros x. apply str_lt_trans. exact E.
  - constructor; [apply IH; exact H1|]. rewrite Forall_forall in *. intros x Hx. apply in_map_iff in Hx. destruct Hx as (kv & <- & Hx).
    apply ginsert_in in Hx. destruct Hx as [->|Hx]; [apply str_lt_gt; exact E|]. apply H2. apply in_map. exact Hx.
Qed.
Lemma gcollect_keys l : keys_sorted (gcollect l).
Proof.
  unfold gcollect. assert (G : forall m, keys_sorted m -> keys_sorted (fold_left (fun m kv => ginsert (fst kv) (snd kv) m) l m)).
  { induction l as [|kv l IH]; intros m H; cbn [fold_left]; [exact H|]. apply IH, ginsert_sorted, H. }
  apply G. constructor.
Qed.

Section Client.
  Variable f64_of : string -> option N.
  Variable show : N -> string.
  Variable string_ok : string -> Prop.
  Definition fine (t : dtok) : Prop := sound_token t /\ writable f64_of show string_ok t.
  Notation Fine := (Forall fine).

  Lemma fine_framed o c ts : Fine (framed o c ts) -> Fine ts.
  Proof. unfold framed. intros H. inversion H; subst. match goal with K : Forall _ (_ ++ _) |- _ => apply Forall_app in K; destruct K as [K _]; exact K end. Qed.
  Lemma fine_flat {A} (f : A -> list dtok) l : Fine (flat_map f l) -> Forall (fun x => Fine (f x)) l.
  Proof. induction l as [|x l IH]; cbn [flat_map]; intros H; [constructor|]. apply Forall_app in H. destruct H as [H1 H2]. constructor; auto. Qed.
  Lemma fine_keyed k ts : Fine (keyed k ts) -> Name k /\ Fine ts.
  Proof. unfold keyed. intros H. inversion H as [|? ? [H1 _] H2]; subst. inversion H2; subst. split; assumption. Qed.
  Lemma fine_head t ts : Fine (t :: ts) -> fine t /\ Fine ts.
  Proof. intros H. inversion H; subst. auto. Qed.

  Lemma go_forall {A} (P : A -> Prop) l :
    (fix go l := match l with [] => True | x :: l' => P x /\ go l' end) l -> Forall P l.
  Proof. induction l as [|x l IH]; [constructor|]. intros [H1 H2]. constructor; auto. Qed.

  Lemma value_client c v : Fine (value_tokens v) -> value_ok c v ->
    value_fit f64_of show string_ok c (of_value v) /\ value_ordered (of_value v).
  Proof.
    induction v as [nm|z|b|s|b| |s|l IH|o IH] using gvalue_ind'; cbn [value_tokens value_ok of_value]; intros F O.
    - apply fine_head in F. destruct F as [_ F]. apply fine_head in F. destruct F as [[F _] _]. split; [constructor; assumption|constructor; exact I].
    - apply fine_head in F. destruct F as [[F _] _]. split; constructor; [exact F|exact I].
    - apply fine_head in F. destruct F as [[_ F] _]. split; constructor; [exact F|exact I].
    - apply fine_head in F. destruct F as [[_ F] _]. split; constructor; [exact F|exact I].
    - split; constructor; exact I.
    - split; constructor; exact I.
    - apply fine_head in F. destruct F as [[F _] _]. destruct O as (O1 & O2 & O3). split; constructor; (exact I || assumption).
    - apply fine_framed, fine_flat in F. apply (go_forall (value_ok c)) in O.
      assert (G : Forall (fun v => value_fit f64_of show string_ok c (of_value v) /\ value_ordered (of_value v)) l).
      { rewrite Forall_forall in *. auto. }
      split; constructor; rewrite Forall_map; (eapply Forall_impl; [|exact G]); intros v [G1 G2]; assumption.
    - apply fine_framed, fine_flat in F. apply (go_forall (fun kv => value_ok c (snd kv))) in O.
      assert (G : Forall (fun kv => Name (fst kv) /\ value_fit f64_of show string_ok c (of_value (snd kv)) /\ value_ordered (of_value (snd kv))) o).
      { rewrite Forall_forall in *. intros kv Hk. destruct (fine_keyed _ _ (F kv Hk)) as [K1 K2]. auto. }
      assert (G' : Forall (fun kv => Name (fst kv) /\ value_fit f64_of show string_ok c (snd kv) /\ value_ordered (snd kv))
         (gcollect (map (fun kv => (fst kv, of_value (snd kv))) o))).
      { rewrite Forall_forall in *. intros kv Hk. apply gcollect_in, in_map_iff in Hk. destruct Hk as (kv' & <- & Hk). exact (G kv' Hk). }
      split; constructor; [|apply gcollect_keys|]; (eapply Forall_impl; [|exact G']); intros kv (G1 & G2 & G3); auto.
  Qed.
  Lemma args_client args : Fine (argument_tokens args) -> args_ok args -> args_fit f64_of show string_ok (of_arguments args) /\ args_ordered (of_arguments args).
  Proof.
    intros F O.
    assert (F' : Forall (fun kv => Fine (keyed (fst kv) (value_tokens (snd kv)))) args).
    { destruct args as [|a args]; [constructor|]. apply fine_framed, fine_flat in F. exact F. }
    assert (G : Forall (fun kv => Name (fst kv) /\ value_fit f64_of show string_ok false (snd kv) /\ value_ordered (snd kv)) (of_arguments args)).
    { unfold of_arguments, args_ok in *. rewrite Forall_forall in *. intros kv Hk. apply gcollect_in, in_map_iff in Hk. destruct Hk as (kv' & <- & Hk).
      destruct (fine_keyed _ _ (F' kv' Hk)) as [K1 K2]. destruct (value_client false _ K2 (O kv' Hk)). auto. }
    split; [|split; [apply gcollect_keys|]]; (eapply Forall_impl; [|exact G]); intros kv (G1 & G2 & G3); auto.
  Qed.
  Lemma variable_client d n : Fine (argument_tokens (d_args d)) -> if_variable d = Some n -> Name n.
  Proof.
    unfold if_variable. intros F H. destruct (kget "if" (d_args d)) as [v|] eqn:E; [|discriminate]. destruct v; try discriminate H. injection H as ->.
    apply kget_in in E. destruct (d_args d) as [|a args]; [destruct E|]. apply fine_framed, fine_flat in F. rewrite Forall_forall in F.
    specialize (F _ E). apply fine_keyed in F. destruct F as [_ F]. cbn [snd value_tokens] in F. apply fine_head in F. destruct F as [_ F].
    apply fine_head in F. apply F.
  Qed.
  Lemma conditions_client ds : Fine (directive_tokens ds) -> name_fit (fst (conditions_pair ds)) /\ name_fit (snd (conditions_pair ds)).
  Proof.
    unfold conditions_pair. intros F.
    assert (G : forall p, name_fit (fst p) /\ name_fit (snd p) -> let r := fold_left (fun p d =>
      if String.eqb (d_name d) "skip" then match if_variable d with Some v => (Some v, snd p) | None => p end
      else if String.eqb (d_name d) "include" then match if_variable d with Some v => (fst p, Some v) | None => p end else p) ds p in
      name_fit (fst r) /\ name_fit (snd r)).
    { induction ds as [|d ds IH]; intros p P; [exact P|]. cbn [directive_tokens flat_map] in F. apply Forall_app in F. destruct F as [F1 F2].
      cbn [fold_left]. apply IH; [exact F2|]. apply fine_head in F1. destruct F1 as [_ F1]. apply fine_head in F1. destruct F1 as [_ F1].
      pose proof (variable_client d) as V.
      destruct (String.eqb (d_name d) "skip"); [|destruct (String.eqb (d_name d) "include"); [|exact P]];
        (destruct (if_variable d) as [v|]; [|exact P]); specialize (V v F1 eq_refl); cbn; tauto. }
    apply (G (None, None)). split; exact I.
  Qed.
  Lemma each_client {A B} (k : A -> option B) (P : A -> Prop) (Q : B -> Prop) l r :
    Forall (fun x => P x -> forall y, k x = Some y -> Q y) l -> Forall P l -> of_each k l = Some r -> Forall Q r /\ (l <> [] -> r <> []).
  Proof.
    intros H F. revert r. induction F as [|x l F1 F2 IH]; cbn [of_each]; intros r E.
    - injection E as <-. split; [constructor|congruence].
    - inversion H as [|? ? H1 H2]; subst. destruct (k x) as [y|] eqn:Ey; [|discriminate]. destruct (of_each k l) as [r'|]; [|discriminate].
      cbn in E. injection E as <-. split; [|discriminate]. constructor; [auto|]. apply (IH H2 r' eq_refl).
  Qed.
  Definition good (x : sel) : Prop := sel_fit f64_of show string_ok x /\ sel_ordered x /\ kept_sel x = x.
  Lemma good_map l : Forall good l -> map kept_sel l = l.
  Proof. induction 1 as [|x l (_ & _ & H) H2 IH]; [reflexivity|]. cbn. rewrite H, IH. reflexivity. Qed.
  Lemma good_fit l : Forall good l -> Forall (sel_fit f64_of show string_ok) l.
  Proof. intros H. eapply Forall_impl; [|exact H]. intros x (G & _). exact G. Qed.
  Lemma good_ordered l : Forall good l -> Forall sel_ordered l.
  Proof. intros H. eapply Forall_impl; [|exact H]. intros x (_ & G & _). exact G. Qed.
  Lemma gcollect_nonempty a l : gcollect (a :: l) <> [].
  Proof.
    unfold gcollect. cbn [fold_left]. assert (G : forall l m, m <> [] -> fold_left (fun m (kv : string * gvalue) => ginsert (fst kv) (snd kv) m) l m <> []).
    { clear. induction l as [|kv l IH]; intros m H; cbn [fold_left]; [exact H|]. apply IH. destruct m as [|[k v] m]; [congruence|]. cbn.
      destruct (String.compare _ _); discriminate. }
    apply G. discriminate.
  Qed.
  Lemma sel_client x : Fine (selection_tokens x) /\ selection_ok x -> forall y, of_selection x = Some y -> good y.
  Proof.
    induction x as [al n args ds sub IH|n ds|tc ds sub IH] using nsel_ind'; cbn [selection_tokens selection_ok of_selection]; intros [F O] y E.
    - destruct (of_each of_selection sub) as [sub'|] eqn:Es; [|discriminate]. cbn [option_map] in E. injection E as <-.
      apply Forall_app in F. destruct F as [Fa F]. apply fine_head in F. destruct F as [[Fn _] F].
      apply Forall_app in F. destruct F as [Fg F]. apply Forall_app in F. destruct F as [Fd Fs]. destruct O as (O1 & O2 & O3).
      assert (S : Forall good sub').
      { eapply (each_client of_selection (fun x => Fine (selection_tokens x) /\ selection_ok x) good); [exact IH| |exact Es].
        apply (go_forall selection_ok) in O3. destruct sub as [|x sub]; [constructor|]. apply fine_framed, fine_flat in Fs.
        rewrite Forall_forall in *. auto. }
      destruct (args_client _ Fg O1) as [A1 A2]. destruct (conditions_client _ Fd) as [C1 C2].
      split; [|split].
      + constructor; [| |destruct args; [constructor|exact A1]|assumption|assumption|apply good_fit; exact S].
        * destruct al as [al|]; [|exact I]. apply fine_head in Fa. apply Fa.
        * exact Fn.
      + constructor; [|apply good_ordered; exact S]. destruct args; [split; constructor|exact A2].
      + cbn [kept_sel]. rewrite good_map by exact S. f_equal. destruct args as [|a args]; [reflexivity|]. cbn [present].
        destruct (of_arguments (a :: args)) eqn:Ea; [|reflexivity]. exfalso. revert Ea. apply gcollect_nonempty.
    - injection E as <-. destruct O as [O1 _]. apply fine_head in F. destruct F as [_ F]. apply fine_head in F. destruct F as [[F _] _].
      split; [|split; [constructor|reflexivity]]. constructor; assumption.
    - destruct tc as [tc|]; [|discriminate]. destruct (of_each of_selection sub) as [sub'|] eqn:Es; [|discriminate]. cbn [option_map] in E. injection E as <-.
      cbn [on_tokens app] in F. apply fine_head in F. destruct F as [_ F]. apply fine_head in F. destruct F as [_ F]. apply fine_head in F. destruct F as [[Fn _] F].
      apply Forall_app in F. destruct F as [Fd Fs]. destruct O as (_ & O2 & O3).
      assert (S : Forall good sub' /\ (sub <> [] -> sub' <> [])).
      { eapply (each_client of_selection (fun x => Fine (selection_tokens x) /\ selection_ok x) good); [exact IH| |exact Es].
        apply (go_forall selection_ok) in O3. apply fine_framed, fine_flat in Fs. rewrite Forall_forall in *. auto. }
      destruct S as [S S']. destruct (conditions_client _ Fd) as [C1 C2].
      split; [|split].
      + constructor; [exact Fn|assumption|assumption|auto|apply good_fit; exact S].
      + constructor. apply good_ordered. exact S.
      + cbn [kept_sel]. rewrite good_map by exact S. reflexivity.
  Qed.
  Lemma set_client l r : Fine (set_tokens l) -> set_ok l -> of_each of_selection l = Some r -> Forall good r /\ r <> [].
  Proof.
    intros F [O1 O2] E. apply fine_framed, fine_flat in F.
    destruct (each_client of_selection (fun x => Fine (selection_tokens x) /\ selection_ok x) good l r) as [H1 H2]; [| |exact E|auto].
    - apply Forall_forall. intros x _. apply sel_client.
    - rewrite Forall_forall in *. auto.
  Qed.
  Lemma type_client t : Fine (type_tokens t) -> type_ok t -> type_fit t.
  Proof.
    induction t as [n|t IH|t IH]; cbn [type_tokens type_ok type_fit]; intros F O.
    - apply fine_head in F. apply F.
    - apply fine_framed in F. auto.
    - apply Forall_app in F. destruct F as [F _]. destruct O as [O1 O2]. split; auto.
  Qed.
  Lemma vardef_client v : Fine (vardef_tokens v) -> vardef_ok v -> vardef_fit f64_of show string_ok (of_vardef v)
    /\ match vd_default (of_vardef v) with Some d => value_ordered d | None => True end.
  Proof.
    unfold vardef_tokens. intros F [O1 O2]. apply fine_head in F. destruct F as [_ F]. apply fine_head in F. destruct F as [[Fn _] F].
    apply fine_head in F. destruct F as [_ F]. apply Forall_app in F. destruct F as [Ft Fd]. unfold of_vardef, vardef_fit. cbn.
    destruct (vd_default v) as [d|]; cbn.
    - apply fine_head in Fd. destruct Fd as [_ Fd]. destruct (value_client true d Fd O2). split; [|assumption]. split; [exact Fn|].
      split; [apply type_client; assumption|assumption].
    - split; [|exact I]. split; [exact Fn|]. split; [apply type_client; assumption|exact I].
  Qed.
  Definition good_op (o : operation) : Prop :=
    op_fit f64_of show string_ok o /\ Forall sel_ordered (op_sels o) /\
    Forall (fun v => match vd_default v with Some d => value_ordered d | None => True end) (listed (op_vars o)) /\ kept_op o = o.
  Definition good_frag (f : fragment) : Prop := frag_fit f64_of show string_ok f /\ Forall good (fr_sels f).
  Lemma definition_client d : Fine (definition_tokens d) /\ definition_ok d -> forall y, of_definition d = Some y ->
    match y with inl o => good_op o | inr f => good_frag f end.
  Proof.
    destruct d as [l|k n vs ds l|n tc ds l]; cbn [definition_tokens definition_ok of_definition]; intros [F O] y E;
      (destruct (of_each of_selection l) as [l'|] eqn:El; [|discriminate]); injection E as <-.
    - destruct (set_client l l' F O El) as [G1 G2]. split; [|split; [apply good_ordered; exact G1|split; [constructor|]]].
      + split; [exact I|]. split; [constructor|]. split; [split; [exact G2|apply good_fit; exact G1]|discriminate].
      + unfold kept_op. cbn. rewrite good_map by exact G1. reflexivity.
    - destruct O as (Ov & _ & Os). apply fine_head in F. destruct F as [_ F]. apply Forall_app in F. destruct F as [Fn F].
      apply Forall_app in F. destruct F as [Fv F]. apply Forall_app in F. destruct F as [_ F].
      destruct (set_client l l' F Os El) as [G1 G2].
      assert (V : Forall (fun v => vardef_fit f64_of show string_ok v /\ match vd_default v with Some d => value_ordered d | None => True end) (map of_vardef vs)).
      { apply Forall_map. destruct vs as [|v vs]; [constructor|]. apply fine_framed, fine_flat in Fv. rewrite Forall_forall in *.
        intros x Hx. apply vardef_client; auto. }
      assert (Hn : match n with Some n => Name n | None => True end) by (destruct n; [apply fine_head in Fn; apply Fn|exact I]).
      assert (Hl : listed (match vs with [] => None | _ => Some (map of_vardef vs) end) = map of_vardef vs) by (destruct vs; reflexivity).
      split; [|split; [apply good_ordered; exact G1|split]].
      + split; [|split; [|split; [split; [exact G2|apply good_fit; exact G1]|discriminate]]].
        * unfold name_of. cbn. destruct n as [n|]; [|exact I]. destruct (string_dec n ""); [exact I|exact Hn].
        * cbn [op_vars]. rewrite Hl. eapply Forall_impl; [|exact V]. intros v [H _]. exact H.
      + cbn [op_vars]. rewrite Hl. eapply Forall_impl; [|exact V]. intros v [_ H]. exact H.
      + unfold kept_op, name_of, kind_of. cbn. rewrite good_map by exact G1. f_equal.
        * destruct n as [n|]; [|reflexivity]. destruct (string_dec n "") as [->|_]; [destruct Hn|reflexivity].
        * destruct vs; reflexivity.
    - destruct O as (On & _ & Os). apply fine_head in F. destruct F as [_ F]. apply fine_head in F. destruct F as [[Fn _] F].
      apply fine_head in F. destruct F as [_ F]. apply fine_head in F. destruct F as [[Ft _] F]. apply Forall_app in F. destruct F as [_ F].
      destruct (set_client l l' F Os El) as [G1 G2]. split; [|exact G1]. split; [exact Fn|]. split; [exact On|]. split; [exact Ft|].
      split; [exact G2|apply good_fit; exact G1].
  Qed.
  Lemma gather_client l : Forall (fun y => match y with inl o => good_op o | inr f => good_frag f end) l ->
    forall op fs d, match op with Some o => good_op o | None => True end -> Forall good_frag fs -> gather op fs l = Some d ->
    good_op (doc_op d) /\ Forall good_frag (doc_frags d).
  Proof.
    induction 1 as [|[o|f] l H1 H2 IH]; intros op fs d Ho Hf E; cbn [gather] in E.
    - destruct op as [o|]; [|discriminate]. injection E as <-. split; [exact Ho|]. apply Forall_rev. exact Hf.
    - eapply IH; [|exact Hf|exact E]. destruct op; assumption.
    - eapply IH; [exact Ho| |exact E]. constructor; assumption.
  Qed.
  Theorem client_fit s ds d : denotes f64_of s ds -> Forall (writable f64_of show string_ok) (document_tokens ds) ->
    of_document ds = Some d -> doc_fit f64_of show string_ok d /\ doc_ordered d /\ kept d = d.
  Proof.
    intros (ts & L & [_ O] & M) W E. unfold of_document in E. destruct (of_each of_definition ds) as [l|] eqn:El; [|discriminate].
    assert (F : Fine (document_tokens ds)).
    { pose proof (denotes_sound f64_of s ts _ L M) as M'. rewrite Forall_forall in *. intros t Ht. split; auto. }
    unfold document_tokens in F. apply fine_flat in F.
    destruct (each_client of_definition (fun x => Fine (definition_tokens x) /\ definition_ok x)
      (fun y => match y with inl o => good_op o | inr f => good_frag f end) ds l) as [G _]; [| |exact El|].
    - apply Forall_forall. intros x _ Hx y. apply definition_client. exact Hx.
    - rewrite Forall_forall in *. auto.
    - destruct (gather_client l G None [] d I (Forall_nil _) E) as [(G1 & G2 & G3 & G4) G5]. split; [|split].
      + split; [exact G1|]. eapply Forall_impl; [|exact G5]. intros f [H _]. exact H.
      + split; [exact G2|]. split; [exact G3|]. eapply Forall_impl; [|exact G5]. intros f [_ H]. apply good_ordered. exact H.
      + destruct d as [o fs]. unfold kept. cbn in *. rewrite G4. f_equal. clear -G5. induction G5 as [|f fs [_ H1] H2 IH]; [reflexivity|].
        cbn [map]. rewrite good_map by exact H1. rewrite IH. destruct f. reflexivity.
  Qed.
End Client.

(** Written and read again *)
Theorem client_again f64_of show s ds d : denotes f64_of s ds -> Forall (writable f64_of show any_string) (document_tokens ds) ->
  of_document ds = Some d -> exists ds', denotes f64_of (document_text show d) ds' /\ of_document ds' = Some d.
Proof.
  intros D W E. destruct (client_fit f64_of show any_string s ds d D W E) as (F & O & K). exists (shown d).
  split; [apply text_denotes; exact F|]. rewrite document_back by exact O. rewrite K. reflexivity.
Qed.
