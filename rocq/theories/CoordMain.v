(** Proofs about the coordinates that are collected. *)
From Coq Require Import String List Bool Arith Lia.
From Verif Require Import Ast ConsumerModel IntroModel CondModel NormModel WalkModel CoordModel CoordSpec CoordProofs.
Import ListNotations.
Local Open Scope string_scope.
Local Open Scope list_scope.

(** Counters *)
Definition zero (p : list (coord * nat)) : Prop := Forall (fun x => snd x = 0) p.
Lemma coord_eqb_refl c : coord_eqb c c = true.
Proof. induction c; cbn; rewrite ?String.eqb_refl; auto. Qed.
Lemma coord_eqb_eq a : forall b, coord_eqb a b = true <-> a = b.
Proof.
  induction a as [t|t f|t f x|c IH]; intros [t'|t' f'|t' f' x'|c']; cbn; try (split; discriminate); rewrite ?andb_true_iff, ?String.eqb_eq; try (split; [intros; intuition congruence | intros X; injection X as; subst; auto]; fail).
  rewrite IH. split; congruence.
Qed.
Lemma take_zero c p : zero p -> take c p = (false, p).
Proof. induction 1 as [|[c' n] p Z F IH]; cbn; [reflexivity|]. cbn in Z. subst n. destruct (coord_eqb c c'); [reflexivity|]. rewrite IH. reflexivity. Qed.
Lemma take_count c p : zero p -> exists p', take c (count c p) = (true, p') /\ zero p'.
Proof.
  induction 1 as [|[c' n] p Z F IH]; cbn.
  - rewrite coord_eqb_refl. exists [(c, 0)]. split; [reflexivity | repeat constructor].
  - cbn in Z. subst n. destruct (coord_eqb c c') eqn:E; cbn; rewrite E.
    + exists ((c', 0) :: p). split; [reflexivity | constructor; [reflexivity | exact F]].
    + destruct IH as (p' & -> & Z'). exists ((c', 0) :: p'). split; [reflexivity | constructor; [reflexivity | exact Z']].
Qed.

(** The parts of the state *)
Definition same (s s' : state) : Prop := used_types s' = used_types s /\ defaults s' = defaults s /\ corrupted s' = corrupted s /\ fields s' = fields s.
Section Main.
  Variable sch : list definition.
  Definition good (s : state) : Prop := zero (provided s) /\ closed sch (visited s, coords s).
  Lemma closed_more v l l' : closed sch (v, l) -> closed sch (v, l ++ l').
  Proof. intros C x X. apply (full_grows sch (v, l)); [split; [apply incl_refl | apply incl_appl, incl_refl] | apply C; exact X]. Qed.
  Definition adds (s s' : state) (P : coord -> Prop) : Prop := good s' /\ same s s' /\ forall c, In c (coords s') <-> In c (coords s) \/ P c.
  Lemma adds_insert l s : good s -> adds s (insert l s) (fun c => In c l).
  Proof. intros (Z & C). split; [split; [exact Z | apply closed_more; exact C]|]. split; [repeat split|]. intros c. cbn. apply in_app_iff. Qed.
  Lemma adds_trans s1 s2 s3 P Q : adds s1 s2 P -> adds s2 s3 Q -> adds s1 s3 (fun c => P c \/ Q c).
  Proof.
    intros (G1 & (A1 & B1 & C1 & D1) & E1) (G2 & (A2 & B2 & C2 & D2) & E2). split; [exact G2|]. split; [repeat split; congruence|]. intros c. rewrite E2, E1. tauto.
  Qed.
  Lemma adds_iff s s' P Q : (forall c, P c <-> Q c) -> adds s s' P -> adds s s' Q.
  Proof. intros E (G & S & X). split; [exact G|]. split; [exact S|]. intros c. rewrite X, E. reflexivity. Qed.
  Lemma adds_none s : good s -> adds s s (fun _ => False).
  Proof. intros G. split; [exact G|]. split; [repeat split|]. intros c. tauto. Qed.
  Lemma mark_plain x s : good s -> adds s (mark_as_used x s) (fun c => c = x).
  Proof.
    intros (Z & C). unfold mark_as_used. rewrite (take_zero x _ Z). split; [split; [exact Z | apply closed_more; exact C]|]. split; [repeat split|]. intros c. cbn. rewrite in_app_iff. cbn. intuition congruence.
  Qed.
  Lemma mark_given x s : good s -> adds s (mark_as_used x (set_provided (count x (provided s)) s)) (fun c => c = x \/ c = CGiven x).
  Proof.
    intros (Z & C). unfold mark_as_used. cbn [provided set_provided]. destruct (take_count x _ Z) as (p' & -> & Z'). split; [split; [exact Z' | apply closed_more; exact C]|]. split; [repeat split|].
    intros c. cbn. rewrite in_app_iff. cbn. intuition congruence.
  Qed.

  (** Values *)
  Lemma default_iff v : forall t c, In c (default_coords sch t v) <-> in_default sch t v c.
  Proof.
    induction v as [n|z|b|s|b| |s|l IH|o IH] using gvalue_ind'; intros t c; try (cbn; split; [tauto | intros X; inversion X; fail]).
    - cbn. split; [intros [<-|[]]; constructor | intros X; inversion X; auto].
    - transitivity (exists x, In x l /\ in_default sch t x c).
      + cbn [default_coords]. induction IH as [|x l X F IL]; [split; [intros [] | intros (x & [] & _)]|]. rewrite in_app_iff, IL, X. split.
        * intros [Y|(y & I & Y)]; [exists x; split; [left; reflexivity | exact Y] | exists y; split; [right; exact I | exact Y]].
        * intros (y & [<-|I] & Y); [left; exact Y | right; exists y; auto].
      + split; [intros (x & I & X); apply (def_item sch t l x c I X) | intros X; inversion X; eauto].
    - cbn [default_coords]. destruct (type_by_name sch t) as [[m d ds|m d im ds fs|m d im ds fs|m d ds ms|m d ds vs|m d ds fs]|] eqn:T;
        try (split; [intros [] | intros X; inversion X; congruence]).
      transitivity (exists k x f, In (k, x) o /\ input_by_name fs k = Some f /\ (c = CMember t k \/ c = CGiven (CMember t k) \/ in_default sch (inner_type (iv_type f)) x c)).
      + clear T. induction IH as [|[k x] o X F IL]; [split; [intros [] | intros (k & x & f & [] & _)]|]. cbn in X. rewrite in_app_iff, IL. split.
        * intros [Y|(k' & x' & f & I & Y)]; [|exists k', x', f; split; [right; exact I | exact Y]]. destruct (input_by_name fs k) as [f|] eqn:E; [|destruct Y].
          exists k, x, f. split; [left; reflexivity|]. split; [exact E|]. cbn in Y. rewrite X in Y. intuition congruence.
        * intros (k' & x' & f & [I|I] & E & Y); [|right; exists k', x', f; auto]. injection I as <- <-. left. rewrite E. cbn. rewrite X. intuition congruence.
      + split.
        * intros (k & x & f & I & E & [Y|[Y|Y]]); [eapply def_here; eauto | eapply def_here; eauto | eapply def_below; eauto].
        * intros X. inversion X as [| |? ? ? ? ? ? k x f ? T' I E Y|? ? ? ? ? ? k x f ? T' I E Y]; subst; rewrite T in T'; injection T' as <- <- <- <-; exists k, x, f; tauto.
  Qed.
  Lemma is_scalar_iff t : is_scalar sch t = true <-> custom sch t.
  Proof. unfold is_scalar, custom. destruct (type_by_name sch t) as [[]|]; split; try discriminate; try (intros (? & ? & ? & U); discriminate U); eauto. Qed.
  Lemma scalar_coord_iff t c : In c (scalar_coord sch t) <-> (builtin t \/ custom sch t) /\ c = CType t.
  Proof.
    unfold scalar_coord. rewrite <- builtin_iff, <- is_scalar_iff. destruct (is_builtin_scalar t), (is_scalar sch t); cbn; intuition congruence.
  Qed.
  Lemma custom_coord_iff t c : In c (if is_scalar sch t then [CType t] else []) <-> custom sch t /\ c = CType t.
  Proof. rewrite <- is_scalar_iff. destruct (is_scalar sch t); cbn; intuition congruence. Qed.
  Lemma item_iff t v c : In c (item_coords sch t v) <-> as_item sch t v c.
  Proof.
    destruct v; cbn [item_coords]; rewrite ?scalar_coord_iff; cbn; split; intros X;
      try (destruct X as (S & ->); constructor; solve [assumption | constructor]);
      try (inversion X as [|? P|]; subst; solve [inversion P | auto]); try destruct X; subst; try constructor; try contradiction.
  Qed.
  Lemma argument_iff t v c : In c (argument_coords sch t v) <-> as_argument sch t v c.
  Proof.
    destruct v; cbn [argument_coords]; rewrite ?scalar_coord_iff, ?custom_coord_iff; cbn; split; intros X;
      try (destruct X as (S & ->); first [apply arg_object; exact S | apply arg_item; constructor; solve [assumption | constructor]]);
      try (inversion X as [? ? Y|? Y]; subst; try (inversion Y as [|? P|]; subst; solve [inversion P | auto]); auto);
      try destruct X as [<-|[]]; try contradiction; apply arg_item; constructor.
  Qed.
  Definition as_entry_direct (t : string) (v : gvalue) (c : coord) : Prop := v <> GNull /\ as_entry sch t v c.
  Lemma entry_iff t v c : In c (entry_coords sch t v) <-> as_entry_direct t v c.
  Proof.
    unfold as_entry_direct. destruct v; cbn [entry_coords]; rewrite ?scalar_coord_iff, ?custom_coord_iff; cbn; split; intros X; try (split; [discriminate|]);
      try (destruct X as (S & ->); constructor; solve [assumption | constructor]);
      try (destruct X as (_ & X); inversion X as [|? P| | |]; subst; solve [inversion P | auto]);
      try destruct X as [<-|[]]; try constructor; try contradiction; destruct X as (X & _); congruence.
  Qed.

  (** Entries of an object *)
  Definition entry_says (before : list call) (m : string) (fs : list input_value) (o : list (string * gvalue)) (c : coord) : Prop :=
    exists n v f, In (n, v) o /\ input_by_name fs n = Some f /\
      (c = CMember m (iv_name f) \/ c = CGiven (CMember m (iv_name f)) /\ given before v \/ as_entry sch (inner_type (iv_type f)) v c).
  Definition valued (before : list call) (s : state) : Prop := forall v, has_value s v = true <-> given before v.
  Lemma valued_same before s s' : same s s' -> valued before s -> valued before s'.
  Proof. intros (_ & D & _) V v. assert (Vv : has_value s v = true <-> given before v) by exact (V v). rewrite <- Vv. unfold has_value. rewrite D. reflexivity. Qed.
  Lemma on_entry_adds before m fs e s : good s -> valued before s -> exists s', on_entry sch m fs e s = Some s' /\ adds s s' (entry_says before m fs [e]).
  Proof.
    intros G V. destruct e as [n v]. unfold on_entry. cbn [fst snd]. destruct (input_by_name fs n) as [f|] eqn:E.
    2: { exists s. split; [reflexivity|]. apply (adds_iff _ _ (fun _ => False)); [|apply adds_none; exact G]. intros c. split; [tauto|]. intros (n' & v' & f & [I|[]] & E' & _). injection I as <- <-. congruence. }
    set (x := CMember m (iv_name f)). set (t := inner_type (iv_type f)).
    assert (A1 := adds_insert (x :: if has_value s v then [CGiven x] else []) s G).
    assert (A2 := mark_plain x _ (proj1 A1)). assert (A12 := adds_trans _ _ _ _ _ A1 A2).
    assert (A3 := adds_insert (entry_coords sch t v) _ (proj1 A2)). assert (A := adds_trans _ _ _ _ _ A12 A3). clear A1 A2 A12 A3.
    set (s2 := insert (entry_coords sch t v) (mark_as_used x (insert (x :: if has_value s v then [CGiven x] else []) s))) in *. clearbody s2.
    assert (ONE : forall c, ((In c (x :: (if has_value s v then [CGiven x] else [])) \/ c = x) \/ In c (entry_coords sch t v)) <->
      (c = x \/ c = CGiven x /\ given before v \/ as_entry_direct t v c)).
    { intros c. rewrite entry_iff. assert (Vv : has_value s v = true <-> given before v) by exact (V v). rewrite <- Vv. destruct (has_value s v); cbn; intuition congruence. }
    assert (FIN : forall s' Q, adds s s' (fun c => c = x \/ c = CGiven x /\ given before v \/ Q c) -> (forall c, Q c <-> as_entry sch t v c) -> adds s s' (entry_says before m fs [(n, v)])).
    { intros s' Q. intros A' EQ. refine (adds_iff _ _ _ _ _ A'). intros c. split.
      - intros X. exists n, v, f. split; [left; reflexivity|]. split; [exact E|]. fold x t. rewrite <- EQ. exact X.
      - intros (n' & v' & f' & [I|[]] & E' & X). injection I as <- <-. rewrite E in E'. injection E' as <-. fold x t in X. rewrite <- EQ in X. exact X. }
    assert (DIRECT : (v = GNull -> ~ is_input sch t) -> adds s s2 (entry_says before m fs [(n, v)])).
    { intros NI. apply (FIN s2 (as_entry_direct t v)); [exact (adds_iff _ _ _ _ ONE A)|]. intros c. unfold as_entry_direct. split; [tauto|]. intros X. split; [|exact X]. intros ->.
      inversion X as [|? P| | |m' d ds fs' ? T W]; subst; [inversion P|]. apply (NI eq_refl). exists m', d, ds, fs'. exact T. }
    destruct v; try (exists s2; split; [reflexivity | apply DIRECT; discriminate]).
    destruct (type_by_name sch t) as [[]|] eqn:T; try (exists s2; split; [reflexivity | apply DIRECT; intros _ (? & ? & ? & ? & U); congruence]).
    destruct A as ((Z & C) & S2 & X2). destruct (nested_adds sch t _ C) as ([v' l'] & EN & C' & AN). rewrite EN. eexists. split; [reflexivity|].
    apply (FIN _ (within sch t)).
    - split; [split; [exact Z | exact C']|]. split; [exact S2|]. intros c. cbn [coords]. cbn [snd] in AN. rewrite AN, X2, ONE. unfold as_entry_direct. intuition congruence.
    - intros c. split; [intros W; apply (entry_null sch t name desc dirs fields c T W)|]. intros X. inversion X as [|? P| | |]; subst; [inversion P | assumption].
  Qed.
  Lemma on_entries_adds before m fs o : forall s, good s -> valued before s -> exists s', on_entries sch m fs o s = Some s' /\ adds s s' (entry_says before m fs o).
  Proof.
    induction o as [|e o IH]; intros s G V; cbn [on_entries].
    - exists s. split; [reflexivity|]. apply (adds_iff _ _ (fun _ => False)); [|apply adds_none; exact G]. intros c. split; [tauto | intros (? & ? & ? & [] & _)].
    - destruct (on_entry_adds before m fs e s G V) as (s1 & E1 & A1). rewrite E1. destruct (IH s1 (proj1 A1) (valued_same _ _ _ (proj1 (proj2 A1)) V)) as (s2 & E2 & A2). exists s2. split; [exact E2|].
      refine (adds_iff _ _ _ _ _ (adds_trans _ _ _ _ _ A1 A2)). intros c. split.
      + intros [(n & v & f & [I|[]] & X)|(n & v & f & I & X)]; exists n, v, f; split; try exact X; [left; exact I | right; exact I].
      + intros (n & v & f & [I|I] & X); [left | right]; exists n, v, f; split; try exact X; [left; exact I | exact I].
  Qed.

  (** Fields around a call *)
  Definition move (stk : list (option field)) (x : call) : list (option field) :=
    match snd x with EnterField _ n _ _ _ => field_of (fst x) n :: stk | LeaveField => tl stk | _ => stk end.
  Definition moves (stk : list (option field)) (l : list call) : list (option field) := fold_left move l stk.
  Fixpoint depth (d : nat) (l : list call) : option nat :=
    match l with
    | [] => Some d
    | x :: l' => match snd x with EnterField _ _ _ _ _ => depth (S d) l' | LeaveField => match d with 0 => None | S d' => depth d' l' end | _ => depth d l' end
    end.
  Lemma depth_app l m : forall d, depth d (l ++ m) = match depth d l with Some d' => depth d' m | None => None end.
  Proof. induction l as [|[c e] l IH]; intros d; [reflexivity|]. cbn. destruct e; auto. destruct d; auto. Qed.
  Lemma balanced_depth l : balanced l -> forall d, depth d l = Some d.
  Proof.
    induction 1 as [|c e l N B IH|c al n args ds sub l c' m BL IL BM IM]; intros d; [reflexivity | cbn; destruct e; auto; destruct N|]. cbn [depth snd]. rewrite depth_app, IL. cbn. apply IM.
  Qed.
  Lemma balanced_moves l : balanced l -> forall stk, moves stk l = stk.
  Proof.
    induction 1 as [|c e l N B IH|c al n args ds sub l c' m BL IL BM IM]; intros stk; [reflexivity | destruct e; try exact (IH stk); destruct N|].
    change (moves stk ((c, EnterField al n args ds sub) :: l ++ (c', LeaveField) :: m)) with (fold_left move (l ++ (c', LeaveField) :: m) (field_of c n :: stk)).
    rewrite fold_left_app. change (fold_left move l (field_of c n :: stk)) with (moves (field_of c n :: stk) l). rewrite IL. exact (IM stk).
  Qed.
  Lemma balanced_app l : balanced l -> forall m, balanced m -> balanced (l ++ m).
  Proof. induction 1 as [|c e l N B IH|c al n args ds sub l c' m BL IL BM IM]; intros m' M; cbn; [exact M | constructor; auto|]. rewrite <- app_assoc. cbn. apply bal_field; [exact BL | apply IM; exact M]. Qed.
  Inductive stacked : list call -> list (option field) -> Prop :=
  | st_nil b : balanced b -> stacked b []
  | st_cons a c al n args ds sub b stk : stacked a stk -> balanced b -> stacked (a ++ (c, EnterField al n args ds sub) :: b) (field_of c n :: stk).
  Lemma stacked_more l stk b : stacked l stk -> balanced b -> stacked (l ++ b) stk.
  Proof. intros H B. destruct H; [apply st_nil; apply balanced_app; assumption|]. rewrite <- app_assoc. cbn. apply st_cons; [assumption|]. apply balanced_app; assumption. Qed.
  Lemma moves_snoc stk l x : moves stk (l ++ [x]) = move (moves stk l) x.
  Proof. unfold moves. rewrite fold_left_app. reflexivity. Qed.
  Lemma stacked_moves l : depth 0 l <> None -> stacked l (moves [] l).
  Proof.
    induction l as [|[c e] l IH] using rev_ind; intros D; [constructor; constructor|]. rewrite depth_app in D. destruct (depth 0 l) as [d|] eqn:E; [|congruence].
    assert (S := IH ltac:(congruence)). rewrite moves_snoc. clear IH. generalize dependent (moves [] l). intros stk S. unfold move. cbn [fst snd].
    destruct e; try (apply stacked_more; [exact S | constructor; [exact Logic.I | constructor]]).
    - apply st_cons; [exact S | constructor].
    - destruct S as [b B|a c1 al n args ds sub b stk SA B].
      + rewrite (balanced_depth _ B) in E. injection E as <-. cbn in D. congruence.
      + cbn [tl]. rewrite <- app_assoc. apply stacked_more; [exact SA|]. cbn. constructor; [exact B | constructor].
  Qed.
  Lemma inside_iff l f : depth 0 l <> None -> (inside l f <-> exists stk, moves [] l = f :: stk).
  Proof.
    intros D. split.
    - intros (a & c & al & n & args & ds & sub & b & -> & B & ->). exists (moves [] a). unfold moves at 1. rewrite fold_left_app. exact (balanced_moves b B (field_of c n :: moves [] a)).
    - intros (stk & E). assert (S := stacked_moves l D). rewrite E in S. inversion S as [|a c al n args ds sub b stk' SA B]; subst. exists a, c, al, n, args, ds, sub, b. auto.
  Qed.

  (** One call *)
  Definition variables (l : list call) (x : string) : Prop := exists k d y, In (k, EnterVariable d) l /\ vd_default d = Some y /\ vd_name d = x.
  Record fits (l : list call) (s : state) : Prop := mkfits {
    f_good : good s;
    f_defaults : forall x, In x (defaults s) <-> variables l x;
    f_used : forall x, In x (used_types s) <-> exists k v, In (k, EnterVariable v) l /\ reach sch (inner_type (vd_type v)) x;
    f_fields : fields s = moves [] l;
    f_coords : forall c, In c (coords s) <-> exists before x after, l = before ++ x :: after /\ says sch before x c }.
  Lemma fits_valued l s : fits l s -> valued l s.
  Proof. intros F v. destruct v; cbn; try (split; intros; first [exact Logic.I | reflexivity | discriminate | contradiction]). rewrite known_in. apply (f_defaults _ _ F). Qed.
  Lemma snoc_split {A} (l : list A) x b y a : l ++ [x] = b ++ y :: a <-> (a = [] /\ b = l /\ y = x) \/ exists a', a = a' ++ [x] /\ l = b ++ y :: a'.
  Proof.
    split.
    - destruct a as [|z a] using rev_ind.
      + intros E. left. apply app_inj_tail in E as (-> & ->). auto.
      + intros E. right. exists a. replace (b ++ y :: a ++ [z]) with ((b ++ y :: a) ++ [z]) in E by (rewrite <- app_assoc; reflexivity). apply app_inj_tail in E as (-> & ->). auto.
    - intros [(-> & -> & ->)|(a' & -> & ->)]; [reflexivity|]. rewrite <- app_assoc. reflexivity.
  Qed.
  Lemma said_snoc l x c : (exists before y after, l ++ [x] = before ++ y :: after /\ says sch before y c) <->
    (exists before y after, l = before ++ y :: after /\ says sch before y c) \/ says sch l x c.
  Proof.
    split.
    - intros (b & y & a & E & S). apply snoc_split in E as [(_ & -> & ->)|(a' & _ & E)]; [right; exact S | left; exists b, y, a'; auto].
    - intros [(b & y & a & E & S)|S]; [exists b, y, (a ++ [x]) | exists l, x, []]; split; try exact S; [apply snoc_split; right; exists a; auto | reflexivity].
  Qed.
  Lemma fits_snoc l s x s' : fits l s -> good s' -> defaults s' = defaults s -> used_types s' = used_types s -> fields s' = move (fields s) x ->
    (forall c, In c (coords s') <-> In c (coords s) \/ says sch l x c) -> match snd x with EnterVariable _ => False | _ => True end -> fits (l ++ [x]) s'.
  Proof.
    intros F G D U FS C N. split; [exact G| | | |].
    - intros y. rewrite D, (f_defaults _ _ F). unfold variables. split; intros (k & d & z & I & X); exists k, d, z; split; try exact X; [apply in_or_app; left; exact I|].
      apply in_app_iff in I as [I|[->|[]]]; [exact I | destruct N].
    - intros y. rewrite U, (f_used _ _ F). split; intros (k & v & I & X); exists k, v; split; try exact X; [apply in_or_app; left; exact I|].
      apply in_app_iff in I as [I|[->|[]]]; [exact I | destruct N].
    - rewrite moves_snoc, <- (f_fields _ _ F). exact FS.
    - intros c. rewrite C, (f_coords _ _ F), said_snoc. reflexivity.
  Qed.
  Lemma step l x s s' : depth 0 (l ++ [x]) <> None -> fits l s -> corrupted s = false -> on_call sch x s = Some s' ->
    (corrupted s' = false -> fits (l ++ [x]) s') /\ (corrupted s' = true <-> orphan [x]).
  Proof.
    intros D F C E. assert (G := f_good _ _ F). assert (D0 : depth 0 l <> None) by (rewrite depth_app in D; destruct (depth 0 l); congruence).
    destruct x as [k e]. unfold on_call in E.
    assert (OR : orphan [(k, e)] <-> c_parent k = None /\ match e with EnterField _ _ _ _ _ | EnterArgument _ _ => True | _ => False end).
    { split; [intros (k' & e' & [I|[]] & X); injection I as <- <-; exact X | intros X; exists k, e; split; [left; reflexivity | exact X]]. }
    rewrite OR. clear OR.
    assert (SKIP : neutral e -> match e with EnterVariable _ => False | _ => True end -> (forall c, ~ says sch l (k, e) c) -> Some s = Some s' -> fits (l ++ [(k, e)]) s').
    { intros N NV NS X. injection X as <-. apply (fits_snoc l s); auto; [unfold move; cbn; destruct e; auto; destruct N|]. intros c. split; [auto | intros [Y|Y]; [exact Y | destruct (NS c Y)]]. }
    assert (ADD : forall P, adds s s' P -> neutral e -> match e with EnterVariable _ => False | _ => True end -> (forall c, P c <-> says sch l (k, e) c) -> fits (l ++ [(k, e)]) s' /\ corrupted s' = false).
    { intros P (G' & (U & DF & CC & FF) & X) N NV PS. split; [|congruence]. apply (fits_snoc l s); auto; [unfold move; cbn; destruct e; auto; destruct N|]. intros c. rewrite X, PS. reflexivity. }
    unfold unless_corrupted in E. rewrite C in E.
    destruct e; try (assert (F' := SKIP Logic.I Logic.I (fun c Y => Y) E); injection E as <-; split; [intros _; exact F' | split; [congruence | intros (_ & [])]]).
    - (* EnterVariable *)
      unfold on_variable in E. destruct (refs_all sch (inner_type (vd_type v))) as (r & ER & R). rewrite ER in E. injection E as <-. split; [intros _ | split; [cbn; congruence | intros (_ & [])]].
      split.
      + destruct G as (Z & CL). split; [exact Z | cbn; apply closed_more; exact CL].
      + intros x. cbn [defaults insert]. unfold variables. split.
        * intros X. assert (X' : In x (defaults s) \/ exists y, vd_default v = Some y /\ vd_name v = x).
          { destruct (vd_default v) as [y|]; [|left; exact X]. apply in_app_iff in X as [X|[X|[]]]; [left; exact X | right; exists y; auto]. }
          destruct X' as [X'|(y & Y & N)].
          -- apply (f_defaults _ _ F) in X' as (k' & d & z & I & X'). exists k', d, z. split; [apply in_or_app; left; exact I | exact X'].
          -- exists k, v, y. split; [apply in_or_app; right; left; reflexivity | auto].
        * intros (k' & d & z & I & Y & N). apply in_app_iff in I as [I|[I|[]]].
          -- assert (X : In x (defaults s)) by (apply (f_defaults _ _ F); exists k', d, z; auto). destruct (vd_default v); [apply in_or_app; left; exact X | exact X].
          -- injection I as <- <-. rewrite Y. apply in_or_app. right. left. exact N.
      + intros x. cbn [used_types insert]. rewrite !in_app_iff, (f_used _ _ F), R. split.
        * intros [(k' & w & I & X)|[X|[<-|[]]]]; [exists k', w; split; [apply in_or_app; left; exact I | exact X] | exists k, v; split; [apply in_or_app; right; left; reflexivity | exact X] |].
          exists k, v. split; [apply in_or_app; right; left; reflexivity | apply reach_here].
        * intros (k' & w & I & X). apply in_app_iff in I as [I|[I|[]]]; [left; exists k', w; auto|]. injection I as <- <-. auto.
      + rewrite moves_snoc, <- (f_fields _ _ F). reflexivity.
      + intros c. cbn [coords insert]. rewrite in_app_iff, (f_coords _ _ F), said_snoc. cbn [says].
        assert (Q : In c (match vd_default v with Some x => default_coords sch (inner_type (vd_type v)) x | None => [] end) <-> exists y, vd_default v = Some y /\ in_default sch (inner_type (vd_type v)) y c); [|rewrite Q; reflexivity].
        destruct (vd_default v) as [y|]; [rewrite default_iff; split; [intros X; exists y; auto | intros (z & Z & X); injection Z as <-; exact X] | split; [intros [] | intros (z & Z & _); discriminate]].
    - (* EnterArgument *)
      injection E as E. unfold on_argument in E. destruct (c_parent k) as [p|] eqn:P.
      2: { subst s'. cbn. split; [discriminate | split; auto]. }
      assert (NO : (forall f, ~ inside l (Some f)) -> s = s' -> fits (l ++ [(k, EnterArgument n v)]) s').
      { intros N X. apply SKIP; try exact Logic.I; [|congruence]. intros c (p' & f & _ & I & _). exact (N f I). }
      assert (GOAL : fits (l ++ [(k, EnterArgument n v)]) s' /\ corrupted s' = false); [|destruct GOAL as (G1 & G2); split; [intros _; exact G1 | split; [congruence | intros (X & _); discriminate]]].
      destruct (fields s) as [|[f|] rest] eqn:FS.
      + subst s'. split; [|exact C]. apply NO; [|reflexivity]. intros f I. apply (inside_iff l _ D0) in I as (stk & I). rewrite <- (f_fields _ _ F) in I. congruence.
      + set (x := CArg (type_name p) (f_name f) n) in E.
        assert (IN : inside l (Some f)) by (apply (inside_iff l _ D0); rewrite <- (f_fields _ _ F); eauto).
        assert (UNI : forall f', inside l (Some f') -> f' = f) by (intros f' I; apply (inside_iff l _ D0) in I as (stk & I); rewrite <- (f_fields _ _ F) in I; congruence).
        assert (V := fits_valued _ _ F v).
        assert (A : adds s (mark_as_used x (if has_value s v then set_provided (count x (provided s)) s else s)) (fun c => c = x \/ c = CGiven x /\ given l v)).
        { destruct (has_value s v); [refine (adds_iff _ _ _ _ _ (mark_given x s G)); intros c; tauto | refine (adds_iff _ _ _ _ _ (mark_plain x s G)); intros c].
          split; [auto | intros [X|(_ & X)]; [exact X|]]. apply V in X. discriminate. }
        set (s2 := mark_as_used x (if has_value s v then set_provided (count x (provided s)) s else s)) in *. clearbody s2.
        assert (FIN : forall Q s3, adds s s3 (fun c => (c = x \/ c = CGiven x /\ given l v) \/ Q c) -> s3 = s' ->
          (forall c, Q c <-> exists f' a, field_by_name p (f_name f) = Some f' /\ input_by_name (f_args f') n = Some a /\ as_argument sch (inner_type (iv_type a)) v c) ->
          fits (l ++ [(k, EnterArgument n v)]) s' /\ corrupted s' = false).
        { intros Q s3 A3 -> QS. apply (ADD _ A3 Logic.I Logic.I). intros c. cbn [says]. rewrite QS. split.
          - intros X. exists p, f. split; [exact P|]. split; [exact IN|]. fold x. tauto.
          - intros (p' & f' & P' & I & X). rewrite P in P'. injection P' as <-. rewrite (UNI f' I) in X. fold x in X. tauto. }
        destruct (field_by_name p (f_name f)) as [f'|] eqn:FB.
        * destruct (input_by_name (f_args f') n) as [a|] eqn:IB.
          -- apply (FIN (fun c => In c (argument_coords sch (inner_type (iv_type a)) v)) (insert (argument_coords sch (inner_type (iv_type a)) v) s2)); [apply (adds_trans _ _ _ _ _ A), adds_insert, (proj1 A) | exact E |].
             intros c. rewrite argument_iff. split; [intros X; exists f', a; auto | intros (f1 & a1 & X1 & X2 & X3); injection X1 as <-; rewrite IB in X2; injection X2 as <-; exact X3].
          -- apply (FIN (fun _ => False) s2); [refine (adds_iff _ _ _ _ _ A); tauto | exact E |]. intros c. split; [tauto|]. intros (f1 & a1 & X1 & X2 & X3). injection X1 as <-. congruence.
        * apply (FIN (fun _ => False) s2); [refine (adds_iff _ _ _ _ _ A); tauto | exact E |]. intros c. split; [tauto|]. intros (f1 & a1 & X1 & _). discriminate.
      + subst s'. split; [|exact C]. apply NO; [|reflexivity]. intros f I. apply (inside_iff l _ D0) in I as (stk & I). rewrite <- (f_fields _ _ F) in I. congruence.
    - (* EnterField *)
      cbn [option_map] in E. injection E as E. unfold on_field in E. destruct (c_parent k) as [p|] eqn:P.
      2: { subst s'. cbn. split; [discriminate | split; auto]. }
      split; [intros _|subst s'; cbn; split; [congruence | intros (X & _); discriminate]].
      apply (fits_snoc l s); auto; try (subst s'; reflexivity); [|subst s'; cbn; unfold field_of; rewrite P; reflexivity|].
      + subst s'. destruct G as (Z & CL). split; [exact Z | cbn; apply closed_more; exact CL].
      + subst s'. intros c. cbn [coords set_fields insert]. rewrite in_app_iff. cbn [says In].
        assert (Q : (exists p0, Some p = Some p0 /\ (c = CMember (type_name p0) n \/ exists f m d ds vs v, field_by_name p0 n = Some f /\ type_by_name sch (inner_type (f_type f)) = Some (Enum m d ds vs) /\ In v vs /\ c = CMember m (ev_name v))) <->
          (CMember (type_name p) n = c \/ In c match field_by_name p n with Some f => match type_by_name sch (inner_type (f_type f)) with Some (Enum m _ _ vs) => map (fun v => CMember m (ev_name v)) vs | _ => [] end | None => [] end)).
        2: { rewrite P, Q. reflexivity. }
        split.
        * intros (p0 & X & [->|(f & m & d & ds' & vs & v & X1 & X2 & X3 & ->)]); injection X as <-; [left; reflexivity|]. right. rewrite X1, X2. apply (in_map (fun v => CMember m (ev_name v))). exact X3.
        * intros [<-|X]; exists p; split; try reflexivity; [left; reflexivity|]. right. destruct (field_by_name p n) as [f|]; [|destruct X].
          destruct (type_by_name sch (inner_type (f_type f))) as [[]|] eqn:T; try destruct X. apply in_map_iff in X as (v & <- & I). eexists f, _, _, _, _, v. split; [reflexivity|]. split; [exact T | auto].
    - (* LeaveField *)
      injection E as <-. split; [intros _|cbn; split; [congruence | intros (_ & [])]]. apply (fits_snoc l s); auto; try reflexivity. intros c. cbn. tauto.
    - (* EnterList *)
      injection E as E. unfold on_list in E. destruct (typed sch (c_input k)) as [t|] eqn:T.
      + destruct (ADD (fun c => In c (flat_map (item_coords sch (type_name t)) l0))) as (F' & C'); try exact Logic.I.
        * subst s'. apply adds_insert. exact G.
        * intros c. cbn [says]. rewrite in_flat_map. split.
          -- intros (v & I & X). apply item_iff in X. exists t, v. auto.
          -- intros (t' & v & T' & I & X). rewrite T in T'. injection T' as <-. exists v. split; [exact I | apply item_iff; exact X].
        * split; [intros _; exact F' | split; [congruence | intros (_ & [])]].
      + split; [intros _ | split; [congruence | intros (_ & [])]]. apply SKIP; try exact Logic.I; [|congruence]. intros c (t & v & T' & _). congruence.
    - (* EnterObject *)
      unfold on_object in E.
      assert (NOPE : (forall m d ds fs, typed sch (c_input k) <> Some (InputObject m d ds fs)) -> Some s = Some s' -> (corrupted s' = false -> fits (l ++ [(k, EnterObject o)]) s') /\ (corrupted s' = true <-> c_parent k = None /\ False)).
      { intros N X. split; [intros _ | injection X as <-; split; [congruence | intros (_ & [])]]. apply SKIP; try exact Logic.I; [|exact X]. intros c (m & d & ds & fs & n & v & f & T' & _). exact (N _ _ _ _ T'). }
      destruct (typed sch (c_input k)) as [[m d ds|m d im ds fs|m d im ds fs|m d ds ms|m d ds vs|m d ds fs]|] eqn:T; try (apply NOPE; [congruence | exact E]).
      destruct (on_entries_adds l m fs o s G (fits_valued _ _ F)) as (s1 & E1 & A). rewrite E in E1. injection E1 as <-.
      destruct (ADD _ A Logic.I Logic.I) as (F' & C').
      + intros c. cbn [says]. rewrite T. unfold entry_says. split.
        * intros (n & v & f & I & IB & X). exists m, d, ds, fs, n, v, f. auto.
        * intros (m' & d' & ds' & fs' & n & v & f & T' & I & IB & X). injection T' as <- <- <- <-. exists n, v, f. auto.
      + split; [intros _; exact F' | split; [congruence | intros (_ & [])]].
  Qed.
End Main.
