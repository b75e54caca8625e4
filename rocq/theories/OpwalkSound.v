(** What the walk gives for each leaf. *)
From Coq Require Import String List NArith Bool Arith Lia.
From Verif Require Import StrOrd Ast QplanModel BestModel OverrideModel SafeModel PathModel PathSpec PathCycle PathBase PathBest PathSound PathTotal PathMain OpwalkModel OpwalkSpec OpwalkBase OpwalkSteps.
Import ListNotations.
Local Open Scope list_scope.

Lemma below_app : forall l l' d, below (l ++ l') d <-> below l d \/ below l' d.
Proof.
  intros l l' d. split.
  - intros B. inversion B as [? x I S|? x c I S B']; subst; apply in_app_iff in I; destruct I as [I|I];
      [left|right|left|right]; (apply below_one || apply below_more); assumption.
  - intros [B|B]; inversion B as [? x I S|? x c I S B']; subst; (apply below_one || apply below_more); try assumption; apply in_or_app; auto.
Qed.
Lemma leaf_end : forall c d, d <> [] -> (to_leaf (c ++ d) <-> to_leaf d).
Proof.
  intros c d N. split.
  - intros [c' [n [a [ar [i [k [om E]]]]]]]. destruct (exists_last N) as [d' [z ->]]. rewrite app_assoc in E. apply app_inj_tail in E. destruct E as [_ ->].
    exists d', n, a, ar, i, k, om. reflexivity.
  - intros [c' [n [a [ar [i [k [om ->]]]]]]]. exists (c ++ c'), n, a, ar, i, k, om. now rewrite app_assoc.
Qed.
Lemma below_ne : forall l d, below l d -> d <> [].
Proof. intros l d B. inversion B; discriminate. Qed.

Section Sound.
  Variable g : pgraph.
  Variable ctx : context.
  Variable objects_of : string -> option (list string).
  Variable ahash : option (list (string * gvalue)) -> N.
  Variable known : list tas -> tas -> bool.
  Variable defs : list (string * sdef).
  Variable subgraph_of : string -> option string.
  Variable root : nat.
  Notation direct := (direct g ctx objects_of ahash known defs subgraph_of).
  Notation indirect := (indirect g ctx objects_of ahash known defs subgraph_of).
  Notation process := (process g ctx objects_of ahash known defs subgraph_of).
  Notation resolve := (resolve g ctx objects_of ahash known defs subgraph_of).
  Notation advanced := (advanced g ctx objects_of).
  Notation reached := (reached g ctx objects_of root).
  Notation answers := (answers g ctx objects_of root).
  Notation stops := (stops g ctx objects_of root).
  Hypothesis CU : consistent_unions g.
  Hypothesis UN : uniform g ctx objects_of root.

  Lemma reached_path : forall c p, reached c p -> path_of g p.
  Proof. now intros c p [P _]. Qed.
  Lemma reached_paths : forall c l, Forall (reached c) l -> Forall (path_of g) l.
  Proof. intros c l F. eapply Forall_impl; [|exact F]. intros p. apply reached_path. Qed.
  Lemma reached_cost : forall c p, reached c p -> (0 < o_cost p)%N.
  Proof.
    intros c p [[m C] [_ [i [e [f [segs [_ [_ [S _]]]]]]]]]. apply chain_grows in C. apply C. now rewrite S.
  Qed.
  Lemma reached_tail : forall c p, reached c p -> exists s e, last_seg p = Some s /\ edge_at g (sg_edge s) e /\ g_tail e = tail_of p.
  Proof.
    intros c p [[m C] [_ [i [e [f [segs [_ [_ [S _]]]]]]]]].
    assert (K : forall n a l b d, chain g n a l b d -> l <> [] -> exists s e l', l = l' ++ [s] /\ edge_at g (sg_edge s) e /\ g_tail e = b).
    { clear. intros n a l b d H. induction H as [|n c s e d0 l m c' A B C D E H IH]; [tauto|]. intros _. destruct l as [|x l].
      - inversion H; subst. exists s, e, []. auto.
      - destruct IH as [s' [e' [l' [-> [EA T]]]]]; [discriminate|]. exists s', e', (s :: l'). auto. }
    destruct (K _ _ _ _ _ C) as [s [e' [l' [E [EA T]]]]]; [now rewrite S|]. exists s, e'. unfold last_seg. rewrite E, rev_app_distr. split; [reflexivity|].
    split; [exact EA|]. apply chain_tail in C. destruct C as [C _]. unfold tail_of. now rewrite C.
  Qed.
  Lemma best_leaf : forall l d, Forall (reached d) l -> l <> [] -> find_best_paths l <> [] /\ same_cost (find_best_paths l) /\ Forall (reached d) (find_best_paths l).
  Proof.
    intros l d F N. assert (P : Forall (fun q => (0 < o_cost q)%N) l) by (eapply Forall_impl; [|exact F]; intros q; apply reached_cost).
    destruct (best_ok l P) as [B NE]. split; [now apply NE|]. split.
    - intros p q I J. apply B in I, J. destruct I as [I M], J as [J M']. apply M in J. apply M' in I. lia.
    - apply Forall_forall. intros q I. apply B in I. rewrite Forall_forall in F. now apply F.
  Qed.
  Lemma first_named : forall c p paths n, Forall (reached c) (p :: paths) -> first_tail g (p :: paths) = Ok n ->
    named g (stand p) (n_name n).
  Proof.
    intros c p paths n F K. inversion F as [|? ? R F']; subst. destruct (reached_tail _ _ R) as [s [e [S [E T]]]]. unfold first_tail in K. rewrite S in K.
    unfold edge_at in E. rewrite E in K. apply bind_ok in K. destruct K as [n' [N K]]. unfold node_at in N. rewrite T in N.
    destruct (nth_error (nodes g) (tail_of p)) as [x|] eqn:X; [|discriminate]. injection N as ->. destruct (n_graph n'); [|discriminate]. injection K as ->.
    exists n. split; [exact X|reflexivity].
  Qed.
  Lemma all_named : forall c p paths t, Forall (reached c) (p :: paths) -> named g (stand p) t -> Forall (fun q => named g (stand q) t) (p :: paths).
  Proof.
    intros c p paths t F N. rewrite Forall_forall in *. intros q I. eapply (UN c p q); [apply F; now left|now apply F|exact N].
  Qed.

  Lemma self_step_ok : forall c t inc skip sub paths next, Forall (reached c) paths -> Forall (fun q => named g (stand q) t) paths ->
    self_step g ctx objects_of ahash known defs subgraph_of t (cond_of inc skip) paths = Ok next -> paths <> [] ->
    next <> [] /\ Forall (reached (c ++ [SFrag t inc skip sub])) next.
  Proof.
    intros c t inc skip sub paths next F N K NE. rewrite asked_ok in K. unfold self_step in K. destruct (asked inc skip) as [k|] eqn:A.
    - apply each_ok in K. split; [intros ->; inversion K; congruence|]. apply Forall_forall. intros q I.
      destruct (f2_right _ _ _ _ K I) as [p [J S]]. apply bind_ok in S. destruct S as [[q'|] [S E]]; [|discriminate]. injection E as ->.
      rewrite Forall_forall in F, N. eapply reached_more; [exact (F _ J)|]. eapply self_advanced; [exact (reached_path _ _ (F _ J))|exact (N _ J)|exact A|exact S].
    - injection K as <-. split; [exact NE|]. rewrite Forall_forall in *. intros q I. eapply reached_more; [exact (F _ I)|].
      split; [exact (reached_path _ _ (F _ I))|]. split; [reflexivity|]. exists []. split; [now rewrite app_nil_r|].
      destruct inc, skip; try discriminate. apply step_stay. now apply N.
  Qed.
  Lemma type_step_ok : forall c t inc skip sub locals paths next, Forall (reached c) paths ->
    type_step g ctx objects_of ahash known defs subgraph_of t (cond_of inc skip) locals paths = Ok next ->
    Forall (reached (c ++ [SFrag t inc skip sub])) next /\ (next = [] -> Forall (no_way g t) paths).
  Proof.
    intros c t inc skip sub locals paths next F K. rewrite asked_ok in K. unfold type_step in K. apply bind_ok in K. destruct K as [l [K E]]. injection E as <-.
    apply each_ok in K. rewrite Forall_forall in F. split.
    - apply Forall_forall. intros q I. apply in_concat in I. destruct I as [qs [IQ I]]. destruct (f2_right _ _ _ _ K IQ) as [p [J S]].
      apply bind_ok in S. destruct S as [ds [D S]]. apply bind_ok in S. destruct S as [is [IS S]]. injection S as <-.
      eapply reached_more; [exact (F _ J)|]. assert (P := reached_path _ _ (F _ J)). apply in_app_iff in I. destruct I as [I|I].
      + assert (IN : In q ds) by (destruct ds; [destruct I|destruct I as [->|[]]; now left]).
        apply (direct_ok g ctx objects_of) in D; [|exact P]. destruct D as [D _]. destruct (D _ IN) as [i FD]. eapply direct_type; [exact P|exact FD].
      + assert (IN : In q is) by (destruct is; [destruct I|destruct I as [->|[]]; now left]).
        destruct locals; [|injection IS as <-; destruct IN].
        eapply (indirect_ok g ctx objects_of) in IS; [|exact P|exact IN]. destruct IS as [src [_ FD]]. eapply indirect_type; [exact P|exact FD].
    - intros E. apply Forall_forall. intros p J. destruct (f2_left _ _ _ _ K J) as [qs [IQ S]].
      apply bind_ok in S. destruct S as [ds [D S]]. apply bind_ok in S. destruct S as [is [IS S]]. injection S as <-.
      assert (Z : ds = []).
      { destruct ds as [|d ds]; [reflexivity|]. exfalso. assert (IN : In d (concat l)) by (apply in_concat; eexists; split; [exact IQ|]; now left). rewrite E in IN. destruct IN. }
      subst ds. apply (direct_ok g ctx objects_of) in D; [|exact (reached_path _ _ (F _ J))]. destruct D as [_ D]. intros i e EA H TE NE SC.
      destruct (D i e EA H TE SC) as [q [[] _]]; [|exact NE]. intros nm r m KE. destruct TE as [TE|[r' TE]]; congruence.
  Qed.
  Lemma fold_typename : forall paths t t',
    fold_res (fun t p => bind (direct p (TField typename None)) (fun ds => match ds with [] => Err (NoPathsFound "__typename") | _ => add_all g t ds end)) paths t = Ok t' ->
    exists D, t' = track_all D t /\ forall q, In q (map snd D) -> exists p ds, In p paths /\ direct p (TField typename None) = Ok ds /\ In q ds.
  Proof.
    intros paths. induction paths as [|p paths IH]; intros t t' K; cbn [fold_res] in K; [injection K as <-; exists []; split; [reflexivity|intros ? []]|].
    apply bind_ok in K. destruct K as [t1 [E K]]. apply bind_ok in E. destruct E as [ds [D E]]. apply IH in K. destruct K as [D' [-> O']].
    assert (E' : add_all g t ds = Ok t1) by (destruct ds; [discriminate|exact E]). apply add_all_ok in E'. destruct E' as [D0 [M [-> _]]].
    exists (D0 ++ D'). split; [now rewrite track_all_app|]. intros q I. rewrite map_app, in_app_iff in I. destruct I as [I|I].
    - exists p, ds. split; [now left|]. split; [exact D|congruence].
    - destruct (O' q I) as [p' [ds' [J [D1 I']]]]. exists p', ds'. split; [now right|]. auto.
  Qed.
  Lemma typename_ok : forall c paths leaf, Forall (reached c) paths ->
    typename_step g ctx objects_of ahash known defs subgraph_of paths = Ok leaf ->
    leaf <> [] /\ same_cost leaf /\ Forall (reached (c ++ [typename_sel])) leaf.
  Proof.
    intros c paths leaf F K. unfold typename_step in K. apply bind_ok in K. destruct K as [t [T K]]. apply fold_typename in T. destruct T as [D [-> O]].
    assert (RB : Forall (reached (c ++ [typename_sel])) (best_of (track_all D []))).
    { apply Forall_forall. intros q I. rewrite (best_of_ok D) in I by exact (track_all_tracks D [] [] tracks_nil). destruct I as [id [I _]].
      destruct (O q) as [p [ds [J [DS IN]]]]; [change q with (snd (id, q)); now apply in_map|]. rewrite Forall_forall in F. assert (P := reached_path _ _ (F _ J)).
      eapply reached_more; [exact (F _ J)|]. apply (direct_ok g ctx objects_of) in DS; [|exact P]. destruct DS as [DS _]. destruct (DS _ IN) as [i FD].
      eapply direct_field; [exact P|exact FD]. }
    destruct (best_of (track_all D [])) as [|q l]; [discriminate|]. injection K as <-. apply best_leaf; [exact RB|discriminate].
  Qed.

  (** ** One selection *)
  Definition done (c l : list sel) (leaves : list (list opath)) (d : list sel) : Prop :=
    exists leaf, In leaf leaves /\ (answers leaf (c ++ d) \/ exists d1 t inc skip sub d2, d = d1 ++ SFrag t inc skip sub :: d2 /\ stops leaf (c ++ d1) t).
  Definition leaf_good (c l : list sel) (leaf : list opath) : Prop :=
    exists d, (below l d /\ answers leaf (c ++ d)) \/ exists t inc skip sub, below l (d ++ [SFrag t inc skip sub]) /\ stops leaf (c ++ d) t.
  (** Selections reached by going down [d] *)
  Inductive inside : list sel -> list sel -> list sel -> Prop :=
  | inside_here l : inside l [] l
  | inside_in l x d l' : In x l -> (forall n, x <> SSpread n) -> inside (sub_of x) d l' -> inside l (x :: d) l'.
  Definition good (c l : list sel) (r : outcome) : Prop :=
    (forall y ps, In (y, ps) (fst r) -> ps <> [] /\ exists d l', inside l d l' /\ In y l' /\ Forall (reached (c ++ d)) ps) /\
    (forall leaf, In leaf (snd r) -> leaf_good c l leaf) /\
    (forall d, below l d -> to_leaf d -> done c l (snd r) d \/
       exists y ps d1 d2 l', In (y, ps) (fst r) /\ d = d1 ++ y :: d2 /\ inside l d1 l' /\ In y l' /\ Forall (reached (c ++ d1)) ps /\ below [y] (y :: d2)).

  Lemma inside_mono : forall l l' d m, incl l l' -> d <> [] -> inside l d m -> inside l' d m.
  Proof. intros l l' d m I N H. inversion H; subst; [now destruct N|]. constructor; auto. Qed.
  Lemma inside_incl : forall l l' d m y, incl l l' -> inside l d m -> In y m -> exists m', inside l' d m' /\ In y m'.
  Proof. intros l l' d m y I H J. inversion H; subst; [exists l'; split; [constructor|auto]|]. exists m. split; [constructor; auto|exact J]. Qed.
  Lemma below_incl : forall l l' d, incl l l' -> below l d -> below l' d.
  Proof. intros l l' d I B. inversion B; subst; (apply below_one || apply below_more); auto. Qed.
  Lemma good_cons : forall c x l a b, good c [x] a -> good c l b -> good c (x :: l) (fst a ++ fst b, snd a ++ snd b).
  Proof.
    intros c x l a b [A1 [A2 A3]] [B1 [B2 B3]].
    assert (IX : incl [x] (x :: l)) by (intros z [<-|[]]; now left). assert (IL : incl l (x :: l)) by (intros z; now right).
    assert (LG : forall l1 leaf, incl l1 (x :: l) -> leaf_good c l1 leaf -> leaf_good c (x :: l) leaf).
    { intros l1 leaf I [d [[B An]|[t [inc [skip [sub [B S]]]]]]]; exists d; [left|right].
      - split; [eapply below_incl; eassumption|exact An].
      - exists t, inc, skip, sub. split; [eapply below_incl; eassumption|exact S]. }
    split; [|split]; cbn [fst snd].
    - intros y ps I. apply in_app_iff in I. destruct I as [I|I]; [destruct (A1 _ _ I) as [N [d [l' [H [J F]]]]]|destruct (B1 _ _ I) as [N [d [l' [H [J F]]]]]].
      all: split; [exact N|]; eapply inside_incl in H; [|eassumption|exact J]; destruct H as [m [H J']]; exists d, m; auto.
    - intros leaf I. apply in_app_iff in I. destruct I as [I|I]; [eapply LG; [exact IX|]; now apply A2|eapply LG; [exact IL|]; now apply B2].
    - intros d B T. change (x :: l) with ([x] ++ l) in B. apply below_app in B. destruct B as [B|B].
      + destruct (A3 d B T) as [[leaf [I An]]|[y [ps [d1 [d2 [l' [I [E [H [J [F Y]]]]]]]]]]].
        * left. exists leaf. split; [apply in_or_app; now left|exact An].
        * right. eapply inside_incl in H; [|exact IX|exact J]. destruct H as [m [H J']]. exists y, ps, d1, d2, m. split; [apply in_or_app; now left|]. auto.
      + destruct (B3 d B T) as [[leaf [I An]]|[y [ps [d1 [d2 [l' [I [E [H [J [F Y]]]]]]]]]]].
        * left. exists leaf. split; [apply in_or_app; now right|exact An].
        * right. eapply inside_incl in H; [|exact IL|exact J]. destruct H as [m [H J']]. exists y, ps, d1, d2, m. split; [apply in_or_app; now right|]. auto.
  Qed.
  Lemma good_nil : forall c, good c [] ([], []).
  Proof.
    intros c. split; [intros ? ? []|]. split; [intros ? []|]. intros d B. inversion B as [? ? I|? ? ? I]; destruct I.
  Qed.
  Lemma good_down : forall c x r, (forall n, x <> SSpread n) -> ~ to_leaf [x] -> good (c ++ [x]) (sub_of x) r -> good c [x] r.
  Proof.
    intros c x r S T [A1 [A2 A3]].
    assert (IN : In x [x]) by now left.
    assert (EQ : forall d, (c ++ [x]) ++ d = c ++ x :: d) by (intros d; now rewrite <- app_assoc).
    split; [|split].
    - intros y ps I. destruct (A1 _ _ I) as [N [d [l' [H [J F]]]]]. split; [exact N|]. exists (x :: d), l'. split; [now constructor|]. split; [exact J|]. now rewrite <- EQ.
    - intros leaf I. destruct (A2 _ I) as [d [[B An]|[t [inc [skip [sub [B St]]]]]]]; exists (x :: d); [left|right].
      + split; [now apply below_more|]. now rewrite <- EQ.
      + exists t, inc, skip, sub. split; [cbn; now apply below_more|]. now rewrite <- EQ.
    - intros d B TL. inversion B as [? z I NS|? z d' I NS B']; subst; destruct I as [<-|[]]; [now destruct T|].
      assert (TL' : to_leaf d') by (apply (leaf_end [x] d'); [eapply below_ne; exact B'|exact TL]).
      destruct (A3 d' B' TL') as [[leaf [I An]]|[y [ps [d1 [d2 [l' [I [-> [H [J [F Y]]]]]]]]]]].
      + left. exists leaf. split; [exact I|]. destruct An as [An|[d1 [t [inc [skip [sub [d2 [-> St]]]]]]]]; [left; now rewrite <- EQ|].
        right. exists (x :: d1), t, inc, skip, sub, d2. split; [reflexivity|]. now rewrite <- EQ.
      + right. exists y, ps, (x :: d1), d2, l'. split; [exact I|]. split; [reflexivity|]. split; [now constructor|]. split; [exact J|]. split; [now rewrite <- EQ|exact Y].
  Qed.

  Definition process_all (locals : list string) := fix process_all (l : list sel) (next : list opath) : res outcome :=
    match l with
    | [] => Ok ([], [])
    | y :: l' => bind (process y next locals) (fun a => bind (process_all l' next) (fun b => Ok (fst a ++ fst b, snd a ++ snd b)))
    end.
  Definition children (shared : list string) := fix children (l : list sel) (p : opath) : res bool :=
    match l with
    | [] => Ok true
    | y :: l' => match process y [p] shared with
                 | Ok ([], []) => Ok false
                 | Ok _ => children l' p
                 | Err _ => Ok false
                 | Panic => Panic
                 | Fuel => Fuel
                 end
    end.
  Lemma process_frag : forall tc inc skip sub paths locals, process (SFrag tc inc skip sub) paths locals =
    bind (first_tail g paths) (fun n =>
      if String.eqb (n_name n) tc
      then bind (self_step g ctx objects_of ahash known defs subgraph_of tc (cond_of inc skip) paths) (process_all locals sub)
      else bind (type_step g ctx objects_of ahash known defs subgraph_of tc (cond_of inc skip) locals paths) (fun next =>
             match next with
             | [] => bind (typename_step g ctx objects_of ahash known defs subgraph_of paths) (fun leaf => Ok ([], [leaf]))
             | _ => process_all locals sub next
             end)).
  Proof. reflexivity. Qed.
  Definition valid_paths (shared : list string) (sub : list sel) (next : list opath) : res (list opath) :=
    match shared with
    | [] => Ok next
    | _ => bind (each (fun p => bind (children shared sub p) (fun b => Ok (if b then Some p else None))) next) (fun l => Ok (keep_some l))
    end.
  Lemma process_field : forall name alias args inc skip om sub paths locals, process (SField name alias args inc skip om sub) paths locals =
    bind (candidates g ctx objects_of ahash known defs subgraph_of (mkfsel name alias args inc skip sub) (has name locals) paths) (fun next =>
      match next with
      | [] => Err (NoPathsFound name)
      | _ => bind (local_fields g defs name sub next) (fun shared => bind (valid_paths shared sub next) (fun valid =>
               match sub with
               | [] => Ok ([], [find_best_paths valid])
               | _ => match valid with [] => Err (NoPathsFound name) | _ => Ok (map (fun y => (y, valid)) sub, []) end
               end))
      end).
  Proof. reflexivity. Qed.
  Lemma valid_in : forall shared sub next valid, valid_paths shared sub next = Ok valid -> incl valid next.
  Proof.
    intros shared sub next valid K. unfold valid_paths in K. destruct shared; [injection K as <-; apply incl_refl|].
    apply bind_ok in K. destruct K as [l [K E]]. injection E as <-. apply each_ok in K. intros p I. apply keep_in in I.
    destruct (f2_right _ _ _ _ K I) as [q [J S]]. apply bind_ok in S. destruct S as [b [_ S]]. destruct b; [|discriminate]. injection S as <-. exact J.
  Qed.

  Lemma process_good : forall x c paths locals r, Forall (reached c) paths -> paths <> [] -> process x paths locals = Ok r -> good c [x] r.
  Proof.
    intros x. induction x as [name alias args inc skip om sub IH|tc inc skip sub IH|n] using sel_ind'; intros c paths locals r F NE K.
    - rewrite process_field in K. apply bind_ok in K. destruct K as [next [CA K]].
      assert (RN : Forall (reached (c ++ [SField name alias args inc skip om sub])) next).
      { apply Forall_forall. intros q I. destruct (candidates_advanced g ctx objects_of ahash known defs subgraph_of CU _ _ _ _ _ om _ _ _ _ (reached_paths _ _ F) CA q I) as [p [J A]].
        rewrite Forall_forall in F. eapply reached_more; [exact (F _ J)|exact A]. }
      destruct next as [|q0 next]; [discriminate|]. set (nx := q0 :: next) in *.
      apply bind_ok in K. destruct K as [shared [LF K]]. apply bind_ok in K. destruct K as [valid [V K]].
      assert (VI := valid_in _ _ _ _ V). assert (RV : Forall (reached (c ++ [SField name alias args inc skip om sub])) valid).
      { rewrite Forall_forall in *. intros q I. apply RN. now apply VI. }
      assert (NS : forall n, SField name alias args inc skip om sub <> SSpread n) by discriminate.
      destruct sub as [|y0 sub].
      + injection K as <-. cbn in LF. injection LF as <-. cbn in V. injection V as <-.
        destruct (best_leaf nx _ RV) as [B1 [B2 B3]]; [discriminate|].
        assert (TL : to_leaf [SField name alias args inc skip om []]) by (exists [], name, alias, args, inc, skip, om; reflexivity).
        assert (AN : answers (find_best_paths nx) (c ++ [SField name alias args inc skip om []])) by (split; [apply leaf_end; [discriminate|exact TL]|]; auto).
        split; [intros ? ? []|]. split.
        * intros leaf [<-|[]]. exists [SField name alias args inc skip om []]. left. split; [apply below_one; [now left|exact NS]|exact AN].
        * intros d B T. left. inversion B as [? z I S|? z d' I S B']; subst; destruct I as [<-|[]].
          -- eexists. split; [now left|]. now left.
          -- inversion B' as [? ? I|? ? ? I]; destruct I.
      + set (sb := y0 :: sub) in *. destruct valid as [|v0 valid]; [discriminate|]. set (vl := v0 :: valid) in *. injection K as <-.
        split; [|split; [intros ? []|]].
        * intros y ps I. cbn [fst] in I. change ((y0, vl) :: map (fun y => (y, vl)) sub) with (map (fun y => (y, vl)) sb) in I.
          apply in_map_iff in I. destruct I as [y' [E J]]. injection E as <- <-. split; [discriminate|].
          exists [SField name alias args inc skip om sb], sb. split; [constructor; [now left|exact NS|constructor]|]. split; [exact J|exact RV].
        * intros d B T. right. inversion B as [? z I S|? z d' I S B']; subst; destruct I as [<-|[]].
          -- exfalso. destruct T as [c' [n [a [ar [i [k [o E]]]]]]]. destruct c' as [|? [|? ?]]; discriminate.
          -- cbn [sub_of] in B'. assert (B2 := B'). inversion B' as [? z I S'|? z d2 I S' B'']; subst.
             ++ exists z, vl, [SField name alias args inc skip om sb], [], sb. split; [exact (in_map (fun y => (y, vl)) sb z I)|]. split; [reflexivity|].
                split; [constructor; [now left|exact NS|constructor]|]. split; [exact I|]. split; [exact RV|]. apply below_one; [now left|exact S'].
             ++ exists z, vl, [SField name alias args inc skip om sb], d2, sb. split; [exact (in_map (fun y => (y, vl)) sb z I)|]. split; [reflexivity|].
                split; [constructor; [now left|exact NS|constructor]|]. split; [exact I|]. split; [exact RV|]. apply below_more; [now left|exact S'|exact B''].
    - assert (PL : forall c' next r', Forall (reached c') next -> next <> [] -> process_all locals sub next = Ok r' -> good c' sub r').
      { intros c' next r' RN NN PK. clear K. revert r' PK. induction IH as [|y l Y _ IHl]; intros r' PK; cbn [process_all] in PK.
        - injection PK as <-. apply good_nil.
        - change (bind (process y next locals) (fun a => bind (process_all locals l next) (fun b => Ok (fst a ++ fst b, snd a ++ snd b))) = Ok r') in PK.
          apply bind_ok in PK. destruct PK as [a [A PK]]. apply bind_ok in PK. destruct PK as [b [B PK]]. injection PK as <-.
          apply good_cons; [eapply Y; [exact RN|exact NN|exact A]|now apply IHl]. }
      set (x := SFrag tc inc skip sub) in *. assert (NS : forall n, x <> SSpread n) by discriminate.
      assert (NT : ~ to_leaf [x]) by (intros [c' [n [a [ar [i [k [o E]]]]]]]; destruct c' as [|? [|? ?]]; discriminate).
      assert (PA : forall next r', Forall (reached (c ++ [x])) next -> next <> [] -> process_all locals sub next = Ok r' -> good c [x] r').
      { intros next r' RN NN PK. apply good_down; [exact NS|exact NT|]. now apply (PL _ next). }
      unfold x in K. rewrite process_frag in K. apply bind_ok in K. destruct K as [n [FT K]]. destruct paths as [|p0 paths]; [now destruct NE|]. set (ps := p0 :: paths) in *.
      assert (NM := first_named _ _ _ _ F FT). destruct (String.eqb (n_name n) tc) eqn:EQ.
      + apply String.eqb_eq in EQ. rewrite EQ in NM. apply bind_ok in K. destruct K as [next [SS K]].
        destruct (self_step_ok c tc inc skip sub ps next F (all_named _ _ _ _ F NM) SS NE) as [NN RN]. exact (PA next r RN NN K).
      + apply String.eqb_neq in EQ. apply bind_ok in K. destruct K as [next [TS K]].
        destruct (type_step_ok c tc inc skip sub locals ps next F TS) as [RN NW]. destruct next as [|q0 next].
        * apply bind_ok in K. destruct K as [leaf [TY K]]. injection K as <-. destruct (typename_ok c ps leaf F TY) as [L1 [L2 L3]].
          assert (ST : stops leaf (c ++ []) tc).
          { rewrite app_nil_r. split; [exact L1|]. split; [exact L2|]. split; [exact L3|]. exists ps. split; [discriminate|]. specialize (NW eq_refl).
            rewrite Forall_forall in *. intros q I. split; [now apply F|]. split; [now apply NW|]. intros NQ.
            assert (NP : named g (stand p0) tc) by (eapply (UN c q p0); [now apply F|apply F; now left|exact NQ]).
            destruct NM as [n1 [X1 Y1]], NP as [n2 [X2 Y2]]. rewrite X1 in X2. injection X2 as <-. congruence. }
          split; [intros ? ? []|]. split.
          -- intros leaf' [<-|[]]. exists []. right. exists tc, inc, skip, sub. split; [apply below_one; [now left|exact NS]|exact ST].
          -- intros d B T. left. exists leaf. split; [now left|]. right. exists [], tc, inc, skip, sub. inversion B as [? z I S|? z d' I S B']; subst; destruct I as [<-|[]].
             ++ exists []. auto.
             ++ exists d'. auto.
        * exact (PA (q0 :: next) r RN ltac:(discriminate) K).
    - cbn in K. injection K as <-. split; [intros ? ? []|]. split; [intros ? []|]. intros d B. inversion B as [? z I S|? z d' I S B']; subst; destruct I as [<-|[]]; now destruct (S n).
  Qed.

  (** ** The walk *)
  Lemma inside_app : forall l d m x d' m', inside l d m -> In x m -> inside [x] d' m' -> d' <> [] -> inside l (d ++ d') m'.
  Proof.
    intros l d m x d' m' H. induction H as [l|l z d m I S H IH]; intros J K N; cbn.
    - eapply inside_mono; [|exact N|exact K]. intros y [<-|[]]. exact J.
    - constructor; auto.
  Qed.
  Lemma inside_below : forall l d m x d', inside l d m -> In x m -> below [x] d' -> below l (d ++ d').
  Proof.
    intros l d m x d' H. induction H as [l|l z d m I S H IH]; intros J B; cbn.
    - eapply below_incl; [|exact B]. intros y [<-|[]]. exact J.
    - apply below_more; auto.
  Qed.
  Definition invariant (x : sel) (stack : list (sel * list opath)) (leaves : list (list opath)) : Prop :=
    (forall y ps, In (y, ps) stack -> ps <> [] /\ exists d m, inside [x] d m /\ In y m /\ Forall (reached d) ps) /\
    (forall leaf, In leaf leaves -> leaf_good [] [x] leaf) /\
    (forall d, below [x] d -> to_leaf d -> done [] [x] leaves d \/
       exists y ps d1 d2 m, In (y, ps) stack /\ d = d1 ++ y :: d2 /\ inside [x] d1 m /\ In y m /\ Forall (reached d1) ps /\ below [y] (y :: d2)).
  Lemma resolve_good : forall x fuel stack leaves out, invariant x stack leaves -> resolve fuel stack leaves = Ok out ->
    complete g ctx objects_of root x out.
  Proof.
    intros x fuel. induction fuel as [|n IH]; intros stack leaves out [A [B C]] K; destruct stack as [|[y ps] stack]; cbn [OpwalkModel.resolve] in K.
    1, 3: injection K as <-; split; [exact B|]; intros d BD T; destruct (C d BD T) as [D|[? [? [? [? [? [[] _]]]]]]]; exact D.
    1: discriminate.
    apply bind_ok in K. destruct K as [r [P K]]. eapply IH; [|exact K]. clear K IH.
    destruct (A y ps (or_introl eq_refl)) as [NE [d0 [m0 [H0 [J0 F0]]]]].
    assert (G0 := process_good y d0 ps [] r F0 NE P). split; [|split].
    - intros z qs I. apply in_app_iff in I. destruct I as [I|I]; [|apply A; now right].
      destruct G0 as [G1 _]. destruct (G1 _ _ I) as [N [d [m [H [J F]]]]]. split; [exact N|].
      destruct d as [|w d].
      + exists d0, m0. rewrite app_nil_r in F. split; [exact H0|]. split; [|exact F]. inversion H; subst. destruct J as [<-|[]]. exact J0.
      + exists (d0 ++ w :: d), m. split; [eapply inside_app; [exact H0|exact J0|exact H|discriminate]|]. auto.
    - intros leaf I. apply in_app_iff in I. destruct I as [I|I]; [now apply B|]. destruct G0 as [_ [G2 _]]. destruct (G2 _ I) as [d [[BD An]|[t [inc [skip [sub [BD S]]]]]]].
      + exists (d0 ++ d). left. split; [eapply inside_below; [exact H0|exact J0|exact BD]|exact An].
      + exists (d0 ++ d). right. exists t, inc, skip, sub. split; [|exact S]. rewrite <- app_assoc. eapply inside_below; [exact H0|exact J0|exact BD].
    - intros d BD T. destruct (C d BD T) as [[leaf [I D]]|[z [qs [d1 [d2 [m [I [-> [H [J [F BZ]]]]]]]]]]].
      + left. exists leaf. split; [apply in_or_app; now left|exact D].
      + destruct I as [E|I]; [|right; exists z, qs, d1, d2, m; split; [apply in_or_app; now right|]; auto].
        injection E as <- <-. destruct (process_good y d1 ps [] r F NE P) as [_ [_ G3]].
        assert (TZ : to_leaf (y :: d2)) by (apply (leaf_end d1); [discriminate|exact T]).
        destruct (G3 _ BZ TZ) as [[leaf [I D]]|[w [ws [e1 [e2 [m' [I [E [H' [J' [F' BW]]]]]]]]]]].
        * left. exists leaf. split; [apply in_or_app; now right|]. destruct D as [D|[e1 [t [inc [skip [sub [e2 [E S]]]]]]]]; [now left|].
          right. exists (d1 ++ e1), t, inc, skip, sub, e2. split; [now rewrite E, app_assoc|exact S].
        * right. destruct e1 as [|u e1].
          -- inversion H'; subst. destruct J' as [<-|[]]. rewrite app_nil_r in F'. injection E as <-.
             exists y, ws, d1, d2, m. split; [apply in_or_app; now left|]. auto.
          -- exists w, ws, (d1 ++ u :: e1), e2, m'. split; [apply in_or_app; now left|]. split; [now rewrite E, app_assoc|].
             split; [eapply inside_app; [exact H|exact J|exact H'|discriminate]|]. auto.
  Qed.
  Lemma entry_reached : Forall (reached []) (entrypoints g root).
  Proof.
    apply Forall_forall. intros p I. unfold entrypoints in I. apply in_map_iff in I. destruct I as [[i e] [<- I]]. apply in_rev in I. apply edges_from_iff in I. destruct I as [E H].
    split; [|split; [exact H|]].
    - exists (g_tail e). cbn. econstructor; [exact E|reflexivity|reflexivity|apply edge_cost_ok|reflexivity|]. constructor.
    - exists i, e, (mkpseg i (g_tail e) (edge_cost (g_kind e)) None None None), []. repeat (split; [assumption || reflexivity|]). apply traces_none.
  Qed.
  Lemma walk_ok : forall sels groups, entrypoints g root <> [] ->
    walk g ctx objects_of ahash known defs subgraph_of (Some root) sels = Ok groups -> Forall2 (complete g ctx objects_of root) sels groups.
  Proof.
    intros sels groups NE K. cbn in K. apply each_ok in K. induction K as [|x group sels groups R _ IH]; constructor; [|exact IH].
    eapply resolve_good; [|exact R]. split; [|split; [intros ? []|]].
    - intros y ps [E|[]]. injection E as <- <-. split; [exact NE|]. exists [], [x]. split; [constructor|]. split; [now left|exact entry_reached].
    - intros d B T. right. inversion B as [? z I S|? z d' I S B']; subst; destruct I as [<-|[]].
      + exists x, (entrypoints g root), [], [], [x]. split; [now left|]. split; [reflexivity|]. split; [constructor|]. split; [now left|]. split; [exact entry_reached|exact B].
      + exists x, (entrypoints g root), [], d', [x]. split; [now left|]. split; [reflexivity|]. split; [constructor|]. split; [now left|]. split; [exact entry_reached|exact B].
  Qed.
End Sound.
