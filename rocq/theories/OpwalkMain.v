(** Types along paths, unions with shared members, resolution from one path, and examples. *)
From Coq Require Import String List NArith Bool Arith Lia.
From Verif Require Import StrOrd Ast QplanModel BestModel OverrideModel SafeModel PathModel PathSpec PathCycle PathBase PathBest PathSound PathTotal PathMain OpwalkModel OpwalkSpec OpwalkBase OpwalkSteps OpwalkSound OpwalkTotal.
Import ListNotations.
Local Open Scope list_scope.

Section Uniform.
  Variable g : pgraph.
  Variable ctx : context.
  Variable objects_of : string -> option (list string).
  Variable root : nat.
  Hypothesis SG : sound_graph g.
  Hypothesis WT : well_typed g root.
  Definition twins (s s' : standing) : Prop := exists t, named g s t /\ named g s' t.
  Lemma takes_inv : forall s i s' e, takes g ctx objects_of s i s' -> edge_at g i e -> g_head e = st_node s /\ st_node s' = g_tail e.
  Proof. intros s i s' e T E. destruct T as [s i e' s' E' H _ N _ _]. unfold edge_at in *. rewrite E in E'. injection E' as <-. now split. Qed.
  Lemma moves_come : forall s l s1 t, moves_by g ctx objects_of s l s1 -> named g s t -> exists t1, named g s1 t1 /\ comes g t t1.
  Proof.
    intros s l s1 t M N. induction M as [s|s l s1 i e s' M IH E K T].
    - exists t. split; [exact N|constructor].
    - destruct (IH N) as [t1 [[h [H <-]] C]]. destruct (takes_inv _ _ _ _ T E) as [HE TE]. destruct (edge_nodes _ SG _ _ E) as [_ [n [id [TN _]]]].
      exists (n_name n). split; [exists n; rewrite TE; now split|]. rewrite <- HE in H. exact (comes_move g t i e h n C E K H TN).
  Qed.
  Lemma step_frag : forall s t inc skip sub segs s', step g ctx objects_of s (SFrag t inc skip sub) segs s' -> named g s' t.
  Proof.
    intros s t inc skip sub segs s' S. destruct WT as [_ [_ W]].
    inversion S as [|s0 t0 sub0 N|s0 t0 i0 k0 c sub0 i e seg s0' N A E K T SE C|s0 t0 i0 k0 sub0 l s1 i e segs0 s0' I1 I2 M E K T ME F]; subst; [exact N| |].
    - destruct (takes_inv _ _ _ _ T E) as [_ TE]. destruct (edge_nodes _ SG _ _ E) as [_ [n [id [TN _]]]]. exists n. rewrite TE. split; [exact TN|]. eapply W; eauto.
    - destruct (takes_inv _ _ _ _ T E) as [_ TE]. destruct (edge_nodes _ SG _ _ E) as [_ [n [id [TN _]]]]. exists n. rewrite TE. split; [exact TN|]. eapply W; eauto.
  Qed.
  Lemma step_field : forall s name alias args inc skip om sub segs s' t, named g s t -> step g ctx objects_of s (SField name alias args inc skip om sub) segs s' ->
    exists i e h n, edge_at g i e /\ field_edge name (g_kind e) /\ nth_error (nodes g) (g_head e) = Some h /\ comes g t (n_name h) /\
      nth_error (nodes g) (g_tail e) = Some n /\ named g s' (n_name n).
  Proof.
    intros s name alias args inc skip om sub segs s' t N S.
    inversion S as [s0 n0 a0 ar0 i0 k0 o0 sub0 l s1 i e s2 segs0 s0' M E K T ME F NR| | |]; subst.
    destruct (moves_come _ _ _ _ M N) as [t1 [[h [H <-]] C]]. destruct (takes_inv _ _ _ _ T E) as [HE TE]. destruct (edge_nodes _ SG _ _ E) as [_ [n [id [TN _]]]].
    exists i, e, h, n. split; [exact E|]. split; [exact K|]. split; [now rewrite HE|]. split; [exact C|]. split; [exact TN|].
    exists n. destruct NR as [-> _]. rewrite TE. now split.
  Qed.
  Lemma step_twins : forall s1 s2 x b1 b2 s1' s2', twins s1 s2 -> step g ctx objects_of s1 x b1 s1' -> step g ctx objects_of s2 x b2 s2' -> twins s1' s2'.
  Proof.
    intros s1 s2 x b1 b2 s1' s2' [t [N1 N2]] A B. destruct x as [name alias args inc skip om sub|tc inc skip sub|n].
    - destruct (step_field _ _ _ _ _ _ _ _ _ _ _ N1 A) as [i [e [h [n [E [K [H [C [T N]]]]]]]]].
      destruct (step_field _ _ _ _ _ _ _ _ _ _ _ N2 B) as [i' [e' [h' [n' [E' [K' [H' [C' [T' N']]]]]]]]].
      destruct WT as [_ [W _]]. exists (n_name n). split; [exact N|]. now rewrite (W name t i i' e e' h h' n n').
    - exists tc. split; eapply step_frag; eassumption.
    - inversion A.
  Qed.
  Lemma traces_twins : forall c s1 s2 g1 g2 s1' s2', twins s1 s2 -> traces g ctx objects_of s1 c g1 s1' -> traces g ctx objects_of s2 c g2 s2' -> twins s1' s2'.
  Proof.
    intros c. induction c as [|x c IH] using rev_ind; intros s1 s2 g1 g2 s1' s2' TW A B.
    - assert (NN : forall s gs s', traces g ctx objects_of s [] gs s' -> s' = s).
      { intros s gs s' T. remember [] as c eqn:E. destruct T as [|s c segs m x block s9 T S]; [reflexivity|now destruct c]. }
      apply NN in A. apply NN in B. now subst.
    - assert (LL : forall s gs s', traces g ctx objects_of s (c ++ [x]) gs s' -> exists ga m b, traces g ctx objects_of s c ga m /\ step g ctx objects_of m x b s').
      { intros s gs s' T. remember (c ++ [x]) as c0 eqn:E. destruct T as [|s c1 segs m x1 block s9 T S]; [now destruct c|]. apply app_inj_tail in E. destruct E as [-> ->]. eauto. }
      apply LL in A. destruct A as [ga [m1 [ba [TA SA]]]]. apply LL in B. destruct B as [gb [m2 [bb [TB SB]]]].
      eapply step_twins; [|exact SA|exact SB]. eapply IH; eassumption.
  Qed.
  Lemma uniform_ok : uniform g ctx objects_of root.
  Proof.
    intros c p q t [_ [_ [i [e [f [segs [E [H [_ [_ [_ [_ [_ TP]]]]]]]]]]]]] [_ [_ [i' [e' [f' [segs' [E' [H' [_ [_ [_ [_ [_ TQ]]]]]]]]]]]]] N.
    destruct (edge_nodes _ SG _ _ E) as [_ [n [id [TN _]]]]. destruct (edge_nodes _ SG _ _ E') as [_ [n' [id' [TN' _]]]].
    assert (TW : twins (at_node (g_tail e) None) (at_node (g_tail e') None)).
    { exists (n_name n). split; [now exists n|]. exists n'. split; [exact TN'|]. destruct WT as [W _]. symmetry. now apply (W i i' e e'). }
    destruct (traces_twins _ _ _ _ _ _ _ TW TP TQ) as [t' [[a [A <-]] [b [B BE]]]]. destruct N as [a' [A' <-]]. rewrite A in A'. injection A' as <-. exists b. now split.
  Qed.
End Uniform.

Lemma walk_sound : forall g ctx objects_of ahash known defs subgraph_of root sels groups,
  sound_graph g -> well_typed g root -> consistent_unions g -> (exists e, In e (edges g) /\ g_head e = root) ->
  walk g ctx objects_of ahash known defs subgraph_of (Some root) sels = Ok groups -> Forall2 (complete g ctx objects_of root) sels groups.
Proof.
  intros g ctx objects_of ahash known defs subgraph_of root sels groups SG WT CU [e [I H]] K.
  eapply walk_ok; [exact CU|now apply uniform_ok| |exact K].
  intros E. apply In_nth_error in I. destruct I as [i I]. assert (J : In (i, e) (edges_from g root)) by (apply edges_from_iff; now split).
  rewrite (in_rev (edges_from g root)) in J. apply (in_map entry) in J. unfold entrypoints in E. rewrite E in J. destruct J.
Qed.
Lemma walk_ends : forall g ctx objects_of ahash known defs subgraph_of root sels,
  sound_graph g -> (exists e, In e (edges g) /\ g_head e = root) -> fair (walk g ctx objects_of ahash known defs subgraph_of (Some root) sels).
Proof.
  intros g ctx objects_of ahash known defs subgraph_of root sels SG [e [I H]]. apply walk_total; [exact SG|].
  intros E. apply In_nth_error in I. destruct I as [i I]. assert (J : In (i, e) (edges_from g root)) by (apply edges_from_iff; now split).
  rewrite (in_rev (edges_from g root)) in J. apply (in_map entry) in J. unfold entrypoints in E. rewrite E in J. destruct J.
Qed.

(** ** Unions *)
(** Paths of one field of a union type, in two subgraphs at least *)
Lemma narrow_shared : forall l ty fd p q a b ma mb, Forall (in_union ty fd) l -> one_list_per_graph l ->
  In p l -> In q l -> has_members p a ma -> has_members q b mb -> a <> b ->
  exists shared, (forall m, In m shared <-> common_member l m) /\
    forall r, In r (narrow l) <-> exists p u, In p l /\ o_union p = Some u /\ In (u_member u) shared /\
      r = mkopath (o_root p) (o_segs p) (o_cost p) (Some (mkuctx (u_type u) (u_field u) (u_graph u) (u_member u) shared)).
Proof.
  intros l ty fd p q a b ma mb F O IP IQ HA HB NE.
  set (per := members_per_graph l). set (shared := fold_left (fun s m => filter (fun x => has x m) s) (map snd per) (fewest per)).
  assert (PI : forall id m, In (id, m) per -> exists p, In p l /\ has_members p id m) by (intros id m I; apply per_graph_in in I; destruct I as [[]|I]; exact I).
  assert (PA : forall p id m, In p l -> has_members p id m -> exists m', In (id, m') per) by (intros r id m I H; now apply (per_graph_all l [] r id m)).
  destruct (PA _ _ _ IP HA) as [m1 P1]. destruct (PA _ _ _ IQ HB) as [m2 P2].
  assert (L : Nat.leb (length per) 1 = false).
  { apply Nat.leb_gt. destruct per as [|x [|y per']]; [destruct P1| |cbn; lia]. destruct P1 as [P1|[]], P2 as [P2|[]]. congruence. }
  assert (PN : per <> []) by (intros E; rewrite E in P1; destruct P1).
  exists shared. split.
  - intros m. unfold shared. rewrite shared_in. unfold common_member. split.
    + intros [_ K] r id mm I H. destruct (PA _ _ _ I H) as [m' J]. destruct (PI _ _ J) as [r' [I' H']]. rewrite (O _ _ _ _ _ I I' H H').
      apply K. apply in_map_iff. exists (id, m'). now split.
    + intros K. assert (A : forall m', In m' (map snd per) -> In m m').
      { intros m' J. apply in_map_iff in J. destruct J as [[id m''] [<- J]]. destruct (PI _ _ J) as [r [I H]]. cbn. exact (K _ _ _ I H). }
      split; [apply A; now apply fewest_in|exact A].
  - assert (E : narrow l = flat_map (fun q => match o_union q with Some v => if has (u_member v) shared then [with_members q v shared] else [] | None => [] end) l).
    { destruct l as [|p0 [|p1 l']]; [destruct IP| |].
      - exfalso. destruct IP as [->|[]], IQ as [->|[]]. destruct HA as [u [U [A _]]], HB as [v [V [B _]]]. congruence.
      - set (l := p0 :: p1 :: l') in *. unfold narrow. fold l.
        change (match l with p :: _ :: _ => _ | _ => _ end) with (match o_union p0 with None => l | Some u =>
          if forallb (fun q => match o_union q with Some v => same_union v u | None => false end) l
          then if Nat.leb (length per) 1 then l
            else flat_map (fun q => match o_union q with Some v => if has (u_member v) shared then [with_members q v shared] else [] | None => [] end) l
          else l end).
        rewrite Forall_forall in F. destruct (F p0 (or_introl eq_refl)) as [u [U [UT UF]]]. rewrite U.
        assert (FB : forallb (fun q => match o_union q with Some v => same_union v u | None => false end) l = true).
        { apply forallb_forall. intros r I. destruct (F r I) as [v [V [VT VF]]]. rewrite V. unfold same_union. now rewrite VT, VF, UT, UF, !String.eqb_refl. }
        now rewrite FB, L. }
    intros r. rewrite E, in_flat_map. split.
    + intros [x [I J]]. destruct (o_union x) as [u|] eqn:U; [|destruct J]. destruct (has (u_member u) shared) eqn:H; [|destruct J]. apply has_iff in H. destruct J as [<-|[]]. exists x, u. auto.
    + intros [x [u [I [U [H ->]]]]]. exists x. split; [exact I|]. rewrite U. apply has_iff in H. rewrite H. now left.
Qed.
Lemma narrow_alone : forall l, (length l <= 1 \/ exists p, In p l /\ o_union p = None) -> narrow l = l.
Proof.
  intros [|p [|p' l]] [L|[q [I U]]]; try reflexivity; [cbn in L; lia|]. unfold narrow. destruct (o_union p) as [u|] eqn:UP; [|reflexivity].
  destruct (forallb _ (p :: p' :: l)) eqn:F; [|reflexivity]. rewrite forallb_forall in F. specialize (F _ I). rewrite U in F. discriminate.
Qed.

(** ** Interfaces that are resolved from one path *)
Section Local.
  Variable g : pgraph.
  Variable ctx : context.
  Variable objects_of : string -> option (list string).
  Variable ahash : option (list (string * gvalue)) -> N.
  Variable known : list tas -> tas -> bool.
  Variable defs : list (string * sdef).
  Variable subgraph_of : string -> option string.
  Notation process := (process g ctx objects_of ahash known defs subgraph_of).

  (** Each path kept for what is below a field answers each field of [shared] there from where it stands. *)
  Lemma local_direct : forall name alias args inc skip om sub paths locals items leaves next shared,
    process (SField name alias args inc skip om sub) paths locals = Ok (items, leaves) ->
    candidates g ctx objects_of ahash known defs subgraph_of (mkfsel name alias args inc skip sub) (has name locals) paths = Ok next ->
    local_fields g defs name sub next = Ok shared ->
    forall y kept p f a ar i k o s, In (y, kept) items -> In p kept -> In (SField f a ar i k o s) sub -> In f shared ->
      In p next /\ exists ds, direct g ctx objects_of ahash known defs subgraph_of p (TField (mkfsel f a ar i k s) None) = Ok ds /\ ds <> [].
  Proof.
    intros name alias args inc skip om sub paths locals items leaves next shared K CK LK y kept p f a ar i k o s IY IP IF IS.
    rewrite process_field, CK in K. cbn [bind] in K. destruct next as [|q next]; [discriminate|]. set (nx := q :: next) in *.
    rewrite LK in K. cbn [bind] in K. apply bind_ok in K. destruct K as [valid [V K]]. assert (VI := valid_in _ _ _ _ _ _ _ _ _ _ _ V).
    destruct sub as [|y0 sub]; [destruct IF|]. set (sb := y0 :: sub) in *. destruct valid as [|v valid]; [discriminate|]. set (vl := v :: valid) in *.
    injection K as <- <-. change ((y0, vl) :: map (fun y => (y, vl)) sub) with (map (fun y => (y, vl)) sb) in IY.
    apply in_map_iff in IY. destruct IY as [y' [E _]]. injection E as <- <-. split; [now apply VI|].
    unfold valid_paths in V. destruct shared as [|s0 sh]; [destruct IS|]. set (shared := s0 :: sh) in *. apply bind_ok in V. destruct V as [l [V E]]. injection E as EV.
    assert (IP' : In p (keep_some l)) by now rewrite EV. apply keep_in in IP'. apply each_ok in V. destruct (f2_right _ _ _ _ V IP') as [p' [_ S]].
    apply bind_ok in S. destruct S as [b [C S]]. destruct b; [|discriminate]. injection S as <-.
    assert (CH : forall l, In (SField f a ar i k o s) l -> children g ctx objects_of ahash known defs subgraph_of shared l p' = Ok true ->
      exists r, process (SField f a ar i k o s) [p'] shared = Ok r).
    { clear. intros l. induction l as [|z l IH]; intros I C; [destruct I|].
      change (match process z [p'] shared with Ok ([], []) => Ok false | Ok _ => children g ctx objects_of ahash known defs subgraph_of shared l p' | Err _ => Ok false | Panic => Panic | Fuel => Fuel end = Ok true) in C.
      destruct I as [->|I].
      - destruct (process (SField f a ar i k o s) [p'] shared) as [r| | |]; try discriminate. now exists r.
      - apply IH; [exact I|]. destruct (process z [p'] shared) as [[[|x1 l1] [|x2 l2]]| | |]; try discriminate; exact C. }
    destruct (CH sb IF C) as [r R]. rewrite process_field in R. apply bind_ok in R. destruct R as [nx' [R R']].
    assert (HF : has f shared = true) by now apply has_iff. rewrite HF in R. unfold candidates in R. cbn [bind] in R. apply bind_ok in R. destruct R as [t [T E]].
    cbn [fold_res] in T. unfold explore_field in T. cbn [negb andb] in T. apply bind_ok in T. destruct T as [t1 [T ET]]. apply bind_ok in T. destruct T as [ds [D T]].
    exists ds. split; [exact D|]. intros ->. cbn in T. injection T as <-. cbn in ET. injection ET as <-. cbn in E. injection E as <-. discriminate.
  Qed.
End Local.
