(** The steps of the walk, one selection at a time. *)
From Coq Require Import String List NArith Bool Arith Lia.
From Verif Require Import StrOrd Ast QplanModel BestModel OverrideModel SafeModel PathModel PathSpec PathCycle PathBase PathBest PathSound PathTotal PathMain OpwalkModel OpwalkSpec.
Import ListNotations.
Local Open Scope list_scope.

Lemma asked_ok : forall inc skip, cond_of inc skip = asked inc skip.
Proof. now intros [i|] [k|]. Qed.
Lemma has_iff : forall k l, has k l = true <-> In k l.
Proof.
  intros k l. unfold has. rewrite existsb_exists. split.
  - intros [x [I E]]. apply String.eqb_eq in E. now subst.
  - intros I. exists k. split; [exact I|apply String.eqb_refl].
Qed.

(** ** New segments *)
Lemma chain_costs : forall g n c l m d, chain g n c l m d -> Forall (fun s => (sg_cost s <= d)%N) l.
Proof.
  intros g n c l m d H. induction H as [|n c s e d0 l m c' A B C D E H IH]; constructor; [|exact IH].
  apply chain_grows in H. now destruct H.
Qed.
Lemma new_segments : forall g p q l (Q : pseg -> Prop), path_of g p -> extends g p q l ->
  (forall s, In s (o_segs q) -> In s (o_segs p) \/ Q s) ->
  exists new, o_segs q = o_segs p ++ new /\ map sg_edge new = l /\ Forall Q new.
Proof.
  intros g p q l Q [m P] [new [R [S [M C]]]] K. exists new. split; [exact S|]. split; [exact M|]. apply Forall_forall. intros s I.
  destruct (K s) as [J|J]; [rewrite S; apply in_or_app; now right| |exact J]. exfalso.
  apply chain_costs in P. apply chain_grows in C. destruct C as [_ [_ C]]. rewrite Forall_forall in P, C. apply P in J. apply C in I. lia.
Qed.

Section Base.
  Variable g : pgraph.
  Variable ctx : context.
  Variable objects_of : string -> option (list string).
  Notation step := (step g ctx objects_of).
  Notation traces := (traces g ctx objects_of).
  Notation found_directly := (found_directly g ctx objects_of).
  Notation found_indirectly := (found_indirectly g ctx objects_of).

  Lemma narrower_refl : forall s, narrower s s.
  Proof. intros [n [l|]]; split; cbn; auto. apply incl_refl. Qed.

  (** [q] is [p] with the segments of one selection added *)
  Definition advanced (p : opath) (x : sel) (q : opath) : Prop :=
    path_of g q /\ o_root q = o_root p /\ exists new, o_segs q = o_segs p ++ new /\ step (stand p) x new (stand q).
  Lemma direct_field : forall p name alias args inc skip om sub ids q i, path_of g p ->
    found_directly p (TField (mkfsel name alias args inc skip sub) ids) q i -> advanced p (SField name alias args inc skip om sub) q.
  Proof.
    intros p name alias args inc skip om sub ids q i P [e [E [R [W [T [X C]]]]]].
    split; [eapply extends_path; eassumption|]. split; [now destruct X as [n [XR _]]|].
    destruct (new_segments _ _ _ _ _ P X C) as [new [S [M F]]]. exists new. split; [exact S|].
    eapply (step_field g ctx objects_of _ name alias args inc skip om sub []); [constructor|exact E|exact R|exact T|exact M|exact F|apply narrower_refl].
  Qed.
  Lemma indirect_field : forall p name alias args inc skip om sub ids src ex q, path_of g p ->
    found_indirectly p (TField (mkfsel name alias args inc skip sub) ids) src ex q -> advanced p (SField name alias args inc skip om sub) q.
  Proof.
    intros p name alias args inc skip om sub ids src ex q P [mv [gs [s [i [e [_ [_ [MV [E [R [_ [T [X [_ [_ C]]]]]]]]]]]]]]].
    split; [eapply extends_path; eassumption|]. split; [now destruct X as [n [XR _]]|].
    destruct (new_segments _ _ _ _ _ P X C) as [new [S [M F]]]. exists new. split; [exact S|].
    eapply step_field; [exact MV|exact E|exact R|exact T|exact M|exact F|apply narrower_refl].
  Qed.
  Lemma direct_type : forall p t inc skip sub q i, path_of g p ->
    found_directly p (TType t (asked inc skip)) q i -> advanced p (SFrag t inc skip sub) q.
  Proof.
    intros p t inc skip sub q i P [e [E [R [W [T [X C]]]]]].
    split; [eapply extends_path; eassumption|]. split; [now destruct X as [n [XR _]]|].
    destruct (new_segments _ _ _ _ _ P X C) as [new [S [M F]]]. exists new. split; [exact S|].
    eapply (step_type g ctx objects_of _ t inc skip sub []); [exact W|exact W|constructor|exact E|exact R|exact T|exact M|exact F].
  Qed.
  Lemma indirect_type : forall p t inc skip sub src ex q, path_of g p ->
    found_indirectly p (TType t (asked inc skip)) src ex q -> advanced p (SFrag t inc skip sub) q.
  Proof.
    intros p t inc skip sub src ex q P [mv [gs [s [i [e [_ [W0 [MV [E [R [W [T [X [_ [_ C]]]]]]]]]]]]]]].
    split; [eapply extends_path; eassumption|]. split; [now destruct X as [n [XR _]]|].
    destruct (new_segments _ _ _ _ _ P X C) as [new [S [M F]]]. exists new. split; [exact S|].
    eapply step_type; [exact W0|exact W|exact MV|exact E|exact R|exact T|exact M|exact F].
  Qed.
  Lemma self_advanced : forall resolvable ahash known p t inc skip sub c q, path_of g p -> named g (stand p) t -> asked inc skip = Some c ->
    self_path g ctx objects_of resolvable ahash known p t c = Ok (Some q) -> advanced p (SFrag t inc skip sub) q.
  Proof.
    intros resolvable ahash known p t inc skip sub c q P N A K.
    destruct (self_ok g ctx objects_of resolvable ahash known _ _ _ _ P K) as [i [e [E [KE [T [X [s [S [SC SA]]]]]]]]].
    split; [eapply extends_path; eassumption|]. split; [now destruct X as [n [XR _]]|].
    exists [s]. split; [exact S|]. eapply step_self; [exact N|exact A|exact E|exact KE|exact T| |split; assumption].
    destruct X as [new [_ [S' [M _]]]]. rewrite S' in S. apply app_inv_head in S. subst new. now injection M.
  Qed.

  Variable root : nat.
  Notation reached := (reached g ctx objects_of root).
  Lemma reached_more : forall c p x q, reached c p -> advanced p x q -> reached (c ++ [x]) q.
  Proof.
    intros c p x q [P [R [i [e [f [segs [E [H [S [F1 [F2 [F3 [F4 T]]]]]]]]]]]]] [PQ [RQ [new [SQ ST]]]].
    split; [exact PQ|]. split; [congruence|]. exists i, e, f, (segs ++ new). rewrite SQ, S. repeat (split; [assumption || reflexivity|]).
    eapply traces_more; eassumption.
  Qed.
  (** The same path with fewer members *)
  Definition thinned (p q : opath) : Prop :=
    o_root q = o_root p /\ o_segs q = o_segs p /\ o_cost q = o_cost p /\ narrower (stand q) (stand p).
  Lemma thinned_refl : forall p, thinned p p.
  Proof. intros p. repeat split. exact (proj2 (narrower_refl (stand p))). Qed.
  Lemma advanced_thinned : forall p name alias args inc skip om sub q q', advanced p (SField name alias args inc skip om sub) q -> thinned q q' ->
    advanced p (SField name alias args inc skip om sub) q'.
  Proof.
    intros p name alias args inc skip om sub q q' [P [R [new [S T]]]] [R' [S' [C' N]]]. split; [|split; [congruence|]].
    - destruct P as [m C]. exists m. now rewrite R', S', C'.
    - exists new. split; [congruence|]. inversion T; subst. eapply step_field; try eassumption.
      destruct N as [N1 N2]. match goal with K : narrower (stand q) _ |- _ => destruct K as [K1 K2] end. split; [congruence|].
      destruct (st_scope (stand q')), (st_scope (stand q)), (st_scope s2); try tauto. eapply incl_tran; eassumption.
  Qed.
End Base.

(** ** What paths say of unions *)
Section Settled.
  Variable g : pgraph.
  Definition settled (q : opath) : Prop := forall u, o_union q = Some u ->
    exists x d, nth_error (nodes g) (tail_of q) = Some x /\ n_union x = Some d /\ n_graph x = Some (u_graph u) /\
      u_type u = um_type d /\ u_field u = um_field d /\ u_members u = um_members d.
  Lemma advance_settled : forall p i e tr f ids, reaches (TField f ids) (g_kind e) -> settled (advance g p i e tr (TField f ids)).
  Proof.
    intros p i e tr f ids R u U. rewrite tail_advance. cbn in U. destruct R as [[r [m K]]|K]; rewrite K in U; cbn in U; [|discriminate].
    destruct (nth_error (nodes g) (g_tail e)) as [x|] eqn:N; [|discriminate]. destruct (n_union x) as [d|] eqn:D; [|discriminate].
    destruct (n_graph x) as [id|] eqn:G; [|discriminate]. injection U as <-. exists x, d. cbn. auto 10.
  Qed.
  Variables (objects_of : string -> option (list string)) (ahash : option (list (string * gvalue)) -> N) (known : list tas -> tas -> bool).
  Section Finders.
    Variable sat : satisfier.
    Lemma direct_settled : forall p f ids l, find_direct_paths g sat p (TField f ids) = Ok l -> Forall settled l.
    Proof.
      intros p f ids l K. unfold find_direct_paths in K. cbn [out_of_scope] in K. apply bind_ok in K. destruct K as [os [K L]]. injection L as <-.
      apply each_ok in K. apply Forall_forall. intros q I. apply keep_in in I. destruct (f2_right _ _ _ _ K I) as [[i e] [J T]].
      apply filter_In in J. destruct J as [_ J]. apply leads_iff in J. unfold try_advance in T. cbn [fst snd] in T, J.
      apply bind_ok in T. destruct T as [[paths|] [_ T]]; [|discriminate]. apply bind_ok in T. destruct T as [tr [_ T]]. injection T as <-.
      now apply advance_settled.
    Qed.
    Definition all_settled (t : tracker) : Prop := Forall (fun x => Forall settled (fst (snd x))) t.
    Lemma track_settled : forall t id q, all_settled t -> settled q -> all_settled (track t id q).
    Proof.
      intros t id q A S. induction A as [|[k [l c]] t F A IH]; cbn; [now repeat constructor|]. cbn in F.
      destruct (String.compare id k).
      - constructor; [|exact A]. cbn. destruct (N.compare (o_cost q) c); cbn; [|now repeat constructor|exact F]. apply Forall_app. split; [exact F|now repeat constructor].
      - constructor; [now repeat constructor|]. now constructor.
      - constructor; assumption.
    Qed.
    Lemma best_settled : forall t, all_settled t -> Forall settled (best_of t).
    Proof.
      intros t A. induction A as [|x t F A IH]; [constructor|]. cbn. apply Forall_app. now split.
    Qed.
    Lemma explore_edge_settled : forall f ids src ty vis reqs p acc x r, explore_edge g objects_of ahash known sat (TField f ids) src ty vis reqs p acc x = Ok r ->
      all_settled (snd acc) -> all_settled (snd r).
    Proof.
      intros f ids src ty vis reqs p acc [i e] r K A. unfold explore_edge in K. cbn [fst snd] in K.
      apply bind_ok in K. destruct K as [n [_ K]]. destruct (n_graph n) as [id|]; [|discriminate].
      apply bind_ok in K. destruct K as [b [_ K]]. destruct (negb b); [injection K as <-; exact A|].
      apply bind_ok in K. destruct K as [[paths|] [_ K]]; [|injection K as <-; exact A].
      apply bind_ok in K. destruct K as [tr [_ K]]. apply bind_ok in K. destruct K as [ds [D K]]. apply direct_settled in D.
      destruct ds as [|d ds]; [injection K as <-; exact A|]. apply bind_ok in K. destruct K as [is [_ K]]. injection K as <-. cbn [snd].
      assert (G : forall l t, Forall (fun y => settled (snd y)) l -> all_settled t -> all_settled (fold_left (fun tk y => track tk (fst y) (snd y)) l t)).
      { intros l. induction l as [|y l IH]; intros t F AT; [exact AT|]. inversion F; subst. cbn. apply IH; [assumption|]. now apply track_settled. }
      apply G; [|exact A]. apply Forall_forall. intros [a q] I. apply in_combine_r in I. rewrite Forall_forall in D. now apply D.
    Qed.
    Lemma explore_edges_settled : forall f ids src ty vis reqs p l acc r, explore_edges g objects_of ahash known sat (TField f ids) src ty vis reqs p l acc = Ok r ->
      all_settled (snd acc) -> all_settled (snd r).
    Proof.
      intros f ids src ty vis reqs p l. induction l as [|x l IH]; intros acc r K A; cbn [explore_edges] in K; [injection K as <-; exact A|].
      apply bind_ok in K. destruct K as [acc' [E K]]. eapply IH; [exact K|]. eapply explore_edge_settled; eassumption.
    Qed.
    Lemma explore_settled : forall fuel f ids src ty stack seen tk r, explore g objects_of ahash known sat fuel (TField f ids) src ty stack seen tk = Ok r ->
      all_settled tk -> all_settled r.
    Proof.
      intros fuel. induction fuel as [|n IH]; intros f ids src ty stack seen tk r K A; destruct stack as [|[[vis reqs] p] stack]; cbn [explore] in K.
      all: try discriminate K.
      1, 2: injection K as <-; exact A.
      destruct (existsb (Nat.eqb (tail_of p)) seen); [eapply IH; eassumption|].
      apply bind_ok in K. destruct K as [[st tk'] [E K]]. eapply IH; [exact K|]. eapply explore_edges_settled in E; [exact E|exact A].
    Qed.
    Lemma indirect_settled : forall p f ids ex l, find_indirect_paths g objects_of ahash known sat p (TField f ids) ex = Ok l -> Forall settled l.
    Proof.
      intros p f ids ex l K. unfold find_indirect_paths in K. apply bind_ok in K. destruct K as [n [_ K]].
      destruct (n_graph n) as [id|]; [|discriminate]. cbn [out_of_scope] in K. apply bind_ok in K. destruct K as [tk [E K]]. injection K as <-.
      apply best_settled. eapply explore_settled; [exact E|constructor].
    Qed.
  End Finders.
End Settled.

(** ** Narrowing *)
Lemma per_graph_in : forall l acc id m, In (id, m) (fold_left (fun acc p => match o_union p with
    | Some u => if existsb (fun x => String.eqb (fst x) (u_graph u)) acc then acc else acc ++ [(u_graph u, u_members u)]
    | None => acc end) l acc) -> In (id, m) acc \/ exists p, In p l /\ has_members p id m.
Proof.
  intros l. induction l as [|p l IH]; intros acc id m I; [now left|]. cbn [fold_left] in I. apply IH in I. destruct I as [I|[q [J H]]].
  - destruct (o_union p) as [u|] eqn:U; [|now left]. destruct (existsb _ acc); [now left|]. apply in_app_iff in I. destruct I as [I|[E|[]]]; [now left|].
    right. exists p. split; [now left|]. injection E as <- <-. exists u. auto.
  - right. exists q. split; [now right|exact H].
Qed.
Lemma per_graph_keeps : forall l acc x, In x acc -> In x (fold_left (fun acc p => match o_union p with
    | Some u => if existsb (fun x => String.eqb (fst x) (u_graph u)) acc then acc else acc ++ [(u_graph u, u_members u)]
    | None => acc end) l acc).
Proof.
  intros l. induction l as [|p l IH]; intros acc x I; [exact I|]. cbn [fold_left]. apply IH. destruct (o_union p) as [u|]; [|exact I].
  destruct (existsb _ acc); [exact I|]. apply in_or_app. now left.
Qed.
Lemma per_graph_all : forall l acc p id m, In p l -> has_members p id m -> exists m', In (id, m') (fold_left (fun acc p => match o_union p with
    | Some u => if existsb (fun x => String.eqb (fst x) (u_graph u)) acc then acc else acc ++ [(u_graph u, u_members u)]
    | None => acc end) l acc).
Proof.
  intros l. induction l as [|q l IH]; intros acc p id m I H; [destruct I|]. cbn [fold_left]. destruct I as [->|I]; [|eapply IH; eassumption].
  destruct H as [u [U [<- <-]]]. rewrite U. destruct (existsb (fun x => String.eqb (fst x) (u_graph u)) acc) eqn:E.
  - apply existsb_exists in E. destruct E as [[a b] [I E]]. apply String.eqb_eq in E. cbn in E. subst a. exists b. now apply per_graph_keeps.
  - exists (u_members u). apply per_graph_keeps. apply in_or_app. right. now left.
Qed.
Lemma fewest_in : forall l, l <> [] -> In (fewest l) (map snd l).
Proof.
  intros [|x l] N; [now destruct N|]. unfold fewest. apply in_map. clear N. revert x. induction l as [|y l IH]; intros x; [now left|]. cbn [fold_left].
  destruct (Nat.ltb (length (snd y)) (length (snd x))).
  - destruct (IH y) as [E|I]; [rewrite <- E; right; now left|right; now right].
  - destruct (IH x) as [E|I]; [rewrite <- E; now left|right; now right].
Qed.
Lemma shared_in : forall (ms : list (list string)) s x, In x (fold_left (fun s m => filter (fun x => has x m) s) ms s) <-> In x s /\ forall m, In m ms -> In x m.
Proof.
  intros ms. induction ms as [|m ms IH]; intros s x; cbn [fold_left].
  - split; [intros I; split; [exact I|intros ? []]|tauto].
  - rewrite IH, filter_In, has_iff. split.
    + intros [[I J] K]. split; [exact I|]. intros m' [<-|I']; auto.
    + intros [I K]. split; [split; [exact I|apply K; now left]|]. intros m' I'. apply K. now right.
Qed.

Definition with_members (q : opath) (v : uctx) (l : list string) : opath :=
  mkopath (o_root q) (o_segs q) (o_cost q) (Some (mkuctx (u_type v) (u_field v) (u_graph v) (u_member v) l)).
(** When the paths are on one union in several subgraphs: the list of what they have in common *)
Lemma narrow_cases : forall l, narrow l = l \/
  exists shared per, per <> [] /\ (forall id m, In (id, m) per -> exists p, In p l /\ has_members p id m) /\
    (forall p id m, In p l -> has_members p id m -> exists m', In (id, m') per) /\
    (forall x, In x shared <-> forall m, In m (map snd per) -> In x m) /\
    narrow l = flat_map (fun q => match o_union q with Some v => if has (u_member v) shared then [with_members q v shared] else [] | None => [] end) l.
Proof.
  intros l. destruct l as [|p [|p' l']]; [now left|now left|]. set (l := p :: p' :: l'). unfold narrow. fold l.
  change (match l with p :: _ :: _ => _ | _ => _ end) with (match o_union p with None => l | Some u =>
    if forallb (fun q => match o_union q with Some v => same_union v u | None => false end) l
    then let per := members_per_graph l in if Nat.leb (length per) 1 then l
      else let shared := fold_left (fun s m => filter (fun x => has x m) s) (map snd per) (fewest per) in
        flat_map (fun q => match o_union q with Some v => if has (u_member v) shared then [with_members q v shared] else [] | None => [] end) l
    else l end).
  destruct (o_union p) as [u|]; [|now left]. destruct (forallb _ l); [|now left]. cbn zeta.
  destruct (Nat.leb (length (members_per_graph l)) 1) eqn:LE; [now left|]. right. exists (fold_left (fun s m => filter (fun x => has x m) s) (map snd (members_per_graph l)) (fewest (members_per_graph l))), (members_per_graph l).
  assert (NE : members_per_graph l <> []) by (intros E; now rewrite E in LE).
  split; [exact NE|]. split; [|split; [|split; [|reflexivity]]].
  - intros id m I. apply per_graph_in in I. destruct I as [[]|I]. exact I.
  - intros q id m I H. now apply (per_graph_all l [] q id m).
  - intros x. rewrite shared_in. split; [now intros [_ K]|]. intros K. split; [|exact K]. apply K. now apply fewest_in.
Qed.
Lemma narrow_thinned : forall l, one_list_per_graph l -> forall q, In q (narrow l) -> exists p, In p l /\ thinned p q.
Proof.
  intros l O q I. destruct (narrow_cases l) as [E|[shared [per [NE [A [B [S E]]]]]]]; rewrite E in I.
  - exists q. split; [exact I|apply thinned_refl].
  - apply in_flat_map in I. destruct I as [p [IP I]]. exists p. split; [exact IP|]. destruct (o_union p) as [v|] eqn:U; [|destruct I].
    destruct (has (u_member v) shared); [|destruct I]. destruct I as [<-|[]]. repeat split. cbn. rewrite U. intros x I. apply (proj1 (S x) I).
    assert (H : has_members p (u_graph v) (u_members v)) by (exists v; auto). destruct (B p _ _ IP H) as [m' J].
    destruct (A _ _ J) as [p' [IP' H']]. rewrite (O _ _ _ _ _ IP IP' H H'). change m' with (snd (u_graph v, m')). now apply in_map.
Qed.
Lemma settled_one_list : forall g l ty fd, consistent_unions g -> Forall (settled g) l -> Forall (in_union ty fd) l -> one_list_per_graph l.
Proof.
  intros g l ty fd C S F p q id a b I J [u [U [UG <-]]] [v [V [VG <-]]]. rewrite Forall_forall in S, F.
  destruct (S _ I u U) as [x [d [X [D [G [T1 [F1 ->]]]]]]]. destruct (S _ J v V) as [y [d' [Y [D' [G' [T2 [F2 ->]]]]]]].
  destruct (F _ I) as [u' [U' [A1 A2]]]. destruct (F _ J) as [v' [V' [B1 B2]]]. rewrite U in U'. rewrite V in V'. injection U' as <-. injection V' as <-.
  apply (C x y d d'); try congruence; eapply nth_error_In; eassumption.
Qed.
Lemma narrow_settled : forall g l, consistent_unions g -> Forall (settled g) l -> forall q, In q (narrow l) -> exists p, In p l /\ thinned p q.
Proof.
  intros g l C S q I. destruct l as [|p [|p' l']]; [destruct I|exists q; split; [exact I|apply thinned_refl]|].
  set (l := p :: p' :: l') in *.
  destruct (o_union p) as [u|] eqn:U.
  2: { exists q. split; [|apply thinned_refl]. unfold narrow, l in I. rewrite U in I. exact I. }
  destruct (forallb (fun q => match o_union q with Some v => same_union v u | None => false end) l) eqn:F.
  2: { exists q. split; [|apply thinned_refl]. unfold narrow, l in I. rewrite U in I. fold l in I. rewrite F in I. exact I. }
  apply narrow_thinned; [|exact I]. apply (settled_one_list g l (u_type u) (u_field u) C S). apply Forall_forall. intros x J.
  rewrite forallb_forall in F. specialize (F x J). destruct (o_union x) as [v|] eqn:V; [|discriminate]. unfold same_union in F.
  apply andb_true_iff in F. destruct F as [F1 F2]. apply String.eqb_eq in F1, F2. exists v. auto.
Qed.
