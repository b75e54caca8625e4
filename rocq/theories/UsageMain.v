(** The usage agent over all histories. *)
From Coq Require Import String List NArith ZArith Bool Arith Lia.
From Verif Require Import UsageModel UsageSpec UsageProofs.
Import ListNotations.
Local Open Scope string_scope.
Local Open Scope list_scope.

Section Main.
  Variable transform : string -> string -> result (option processed).
  Variable hash : list string -> N.
  Variable c : config.
  Notation act := (act transform hash c).
  Notation acts := (acts transform hash c).
  Notation run l := (UsageModel.acts transform hash c (agent_new c) l).
  Notation excluded := (excluded c).
  Notation considered := (considered hash c).
  Notation sampled := (sampled hash c).
  Notation kept := (kept hash c).
  Notation key := (key hash c).

  Lemma acts_app a l l' : acts a (l ++ l') = acts (acts a l) l'.
  Proof. revert a. induction l as [|m l IH]; intros a; [reflexivity|]. cbn. apply IH. Qed.

  Lemma excluded_iff x e : excluded x e <-> should_exclude c x e <> Ok false.
  Proof.
    unfold should_exclude. split.
    - intros [l n e' E N I|E|m E]; rewrite E; try congruence. rewrite N. intros [= H].
      assert (T : existsb (fun m => String.eqb m n) l = true) by (apply existsb_exists; exists n; split; [exact I | apply String.eqb_refl]). congruence.
    - destruct (c_exclude c) as [[l|]|] eqn:E; [| |congruence].
      + destruct (x_name x) as [n|] eqn:N; [|congruence]. destruct (existsb (fun m => String.eqb m n) l) eqn:X; [|congruence]. intros _.
        apply existsb_exists in X as (m & I & Q). apply String.eqb_eq in Q. subst. exact (by_name _ _ l n _ E N I).
      + destruct e as [[|]|m]; [|congruence|]; intros _; [apply by_expression; exact E | apply by_failure; exact E].
  Qed.

  (** The keys seen *)
  Definition tracks (s : option fifo) (h : list N) : Prop :=
    match s, c_once c with
    | Some f, Some _ => rings f h /\ capacity f = window c
    | None, None => True
    | _, _ => False
    end.
  Lemma tracks_new : tracks (a_once (agent_new c)) [].
  Proof. unfold tracks, agent_new, window. cbn. destruct (c_once c) as [[ks n]|]; [|exact I]. split; [apply rings_new; lia | reflexivity]. Qed.
  Lemma sample_iff s h x coin : tracks s h -> (fst (should_sample hash c s x coin) = true <-> sampled h x coin) /\ tracks (snd (should_sample hash c s x coin)) (key x :: h).
  Proof.
    unfold tracks, should_sample, UsageSpec.sampled, UsageSpec.key. intros T.
    assert (R : forall b : bool, (if b then true else if (1000000 <=? c_rate c)%Z then true else if (c_rate c <=? 0)%Z then false else coin) = true <->
      b = true \/ (1000000 <= c_rate c)%Z \/ (0 < c_rate c)%Z /\ coin = true).
    { intros [|]; [split; auto|]. destruct (Z.leb_spec 1000000 (c_rate c)) as [L|L]; [split; auto|].
      destruct (Z.leb_spec (c_rate c) 0) as [G|G]; (split; [intros H|intros [H|[H|(H & K)]]]); auto; try discriminate; try lia. }
    destruct s as [f|], (c_once c) as [[ks n]|] eqn:O; try contradiction.
    - destruct T as (T & C). destruct (rings_insert f h (hash (map (key_value x) ks)) T) as (A & B & D).
      destruct (fifo_insert f (hash (map (key_value x) ks))) as [b f'] eqn:F. cbn [fst snd] in *. split.
      + rewrite R, A, C. split; intros [H|H]; auto; left; [split; [discriminate | exact H] | destruct H; assumption].
      + split; [exact B | congruence].
    - cbn [fst snd]. split; [|exact I]. etransitivity; [exact (R false)|]. split; intros [H|H]; auto; [discriminate | destruct H; congruence].
  Qed.

  (** Reports taken from the buffer *)
  Lemma handle_buffer a d ev n : a_buffer (fst (handle transform a d ev n)) = a_buffer a /\ a_once (fst (handle transform a d ev n)) = a_once a.
  Proof.
    unfold handle. destruct d as [|x d]; [auto|]. destruct (produce transform (a_cache a) ev (x :: d) empty_report) as [[r c']|]; [|auto].
    destruct (r_size r =? 0)%N; auto.
  Qed.
  Lemma handle_log a d ev n : d = [] /\ fst (handle transform a d ev n) = a \/
    d <> [] /\ exists f, a_log (fst (handle transform a d ev n)) = a_log a ++ [(d, f)].
  Proof.
    unfold handle. destruct d as [|x d]; [auto|]. right. split; [discriminate|]. destruct (produce transform (a_cache a) ev (x :: d) empty_report) as [[r c']|]; cbn; eauto.
    destruct (r_size r =? 0)%N; cbn; eauto.
  Qed.

  Record good (l : list action) (a : agent) : Prop := mkgood {
    d_keys : exists h, considered l h /\ tracks (a_once a) h;
    d_kept : kept l (concat (map fst (a_log a)) ++ a_buffer a);
    d_size : length (a_buffer a) <= c_size c;
    d_batch : Forall (fun b => 1 <= length (fst b) <= c_size c + 1) (a_log a) }.
  Lemma good_new : good [] (agent_new c).
  Proof. constructor; cbn; [exists []; split; [constructor | apply tracks_new] | constructor | lia | constructor]. Qed.
  Lemma good_act l a m : good l a -> good (l ++ [m]) (fst (act a m)).
  Proof.
    intros [(h & C & T) K S B]. destruct m as [x e coin ev n|ev n]; cbn [UsageModel.act].
    - destruct (should_exclude c x e) as [[|]|er] eqn:E.
      + assert (X : excluded x e) by (apply excluded_iff; congruence). cbn [fst].
        constructor; auto; [exists h; split; [apply cons_out; assumption | exact T] | eapply kept_out; eauto].
      + assert (X : ~ excluded x e) by (rewrite excluded_iff; congruence).
        destruct (sample_iff (a_once a) h x coin T) as (A & T'). destruct (should_sample hash c (a_once a) x coin) as [b s'] eqn:SS. cbn [fst snd] in *.
        assert (KK : exists h', considered (l ++ [Add x e coin ev n]) h' /\ tracks s' h') by (exists (key x :: h); split; [apply cons_in; assumption | exact T']).
        destruct b.
        * assert (Y : sampled h x coin) by (apply A; reflexivity).
          assert (K' : kept (l ++ [Add x e coin ev n]) ((concat (map fst (a_log a)) ++ a_buffer a) ++ [x])) by (eapply kept_in; eauto).
          unfold buffer_add. destruct (Nat.leb (c_size c) (length (a_buffer a))) eqn:L.
          -- apply Nat.leb_le in L. set (a' := mkagent [] s' (a_cache a) (a_log a)).
             destruct (handle_buffer a' (a_buffer a ++ [x]) ev n) as (H1 & H2).
             destruct (handle_log a' (a_buffer a ++ [x]) ev n) as [(Z & _)|(_ & f & H3)]; [destruct (a_buffer a); discriminate|].
             constructor.
             ++ rewrite H2. exact KK.
             ++ rewrite H1, H3. cbn [a_log a' a_buffer]. rewrite map_app, concat_app. cbn. rewrite !app_nil_r, app_assoc. exact K'.
             ++ rewrite H1. cbn. lia.
             ++ rewrite H3. cbn [a_log a']. apply Forall_app. split; [exact B|]. constructor; [|constructor]. cbn [fst]. rewrite app_length. cbn. lia.
          -- apply Nat.leb_gt in L. cbn [fst]. constructor; cbn [a_once a_log a_buffer]; [exact KK | rewrite app_assoc; exact K' | rewrite app_length; cbn; lia | exact B].
        * assert (Y : ~ sampled h x coin) by (rewrite <- A; discriminate). cbn [fst].
          constructor; cbn [a_once a_log a_buffer]; auto. eapply kept_out; eauto.
      + assert (X : excluded x e) by (apply excluded_iff; congruence). cbn [fst].
        constructor; auto; [exists h; split; [apply cons_out; assumption | exact T] | eapply kept_out; eauto].
    - set (a' := mkagent [] (a_once a) (a_cache a) (a_log a)). destruct (handle_buffer a' (a_buffer a) ev n) as (H1 & H2).
      constructor.
      + rewrite H2. exists h. split; [apply cons_flush; exact C | exact T].
      + apply kept_flush. rewrite H1. destruct (handle_log a' (a_buffer a) ev n) as [(Z & ->)|(_ & f & ->)]; cbn [a_log a' a_buffer].
        * rewrite Z in K. exact K.
        * rewrite map_app, concat_app. cbn. rewrite !app_nil_r. exact K.
      + rewrite H1. cbn. lia.
      + destruct (handle_log a' (a_buffer a) ev n) as [(Z & ->)|(Z & f & ->)]; cbn [a_log a']; [exact B|].
        apply Forall_app. split; [exact B|]. constructor; [|constructor]. cbn [fst]. destruct (a_buffer a); [congruence | cbn in *; lia].
  Qed.
  Lemma good_run l : good l (run l).
  Proof. induction l as [|m l IH] using rev_ind; [apply good_new|]. rewrite acts_app. exact (good_act _ _ _ IH). Qed.

  Lemma kept_once l : kept l (concat (map fst (a_log (run l))) ++ a_buffer (run l)).
  Proof. apply good_run. Qed.
  Lemma sizes l : length (a_buffer (run l)) <= c_size c /\ Forall (fun b => 1 <= length (fst b) <= c_size c + 1) (a_log (run l)).
  Proof. destruct (good_run l). auto. Qed.
  Lemma flushed l ev n : a_buffer (run (l ++ [Flush ev n])) = [] /\ kept (l ++ [Flush ev n]) (concat (map fst (a_log (run (l ++ [Flush ev n]))))).
  Proof.
    assert (H : a_buffer (run (l ++ [Flush ev n])) = []).
    { rewrite acts_app. cbn. apply handle_buffer. }
    split; [exact H|]. pose proof (kept_once (l ++ [Flush ev n])) as K. rewrite H, app_nil_r in K. exact K.
  Qed.
  (** The specification names one list *)
  Lemma considered_fun l h h' : considered l h -> considered l h' -> h = h'.
  Proof.
    intros A. revert h'. induction A as [|l h ev n A IH|l h x e b ev n A IH X|l h x e b ev n A IH X]; intros h' B.
    - inversion B as [|? ? ? ? ? E|? ? ? ? ? ? ? ? ? E|? ? ? ? ? ? ? ? ? E]; auto; destruct l; discriminate.
    - inversion B as [E|? ? ? ? B' E|? ? ? ? ? ? ? B' X' E|? ? ? ? ? ? ? B' X' E]; [destruct l; discriminate | | |];
        apply app_inj_tail in E as (-> & E); inversion E; subst; auto.
    - inversion B as [E|? ? ? ? B' E|? ? ? ? ? ? ? B' X' E|? ? ? ? ? ? ? B' X' E]; [destruct l; discriminate | | |];
        apply app_inj_tail in E as (-> & E); inversion E; subst; auto. contradiction.
    - inversion B as [E|? ? ? ? B' E|? ? ? ? ? ? ? B' X' E|? ? ? ? ? ? ? B' X' E]; [destruct l; discriminate | | |];
        apply app_inj_tail in E as (-> & E); inversion E; subst; auto; [contradiction|]. f_equal. auto.
  Qed.
  Lemma kept_fun l k k' : kept l k -> kept l k' -> k = k'.
  Proof.
    intros A. revert k'. induction A as [|l k ev n A IH|l k h x e b ev n A IH C X|l k h x e b ev n A IH C X Y]; intros k' B.
    - inversion B as [|? ? ? ? ? E|? ? ? ? ? ? ? ? ? ? ? E|? ? ? ? ? ? ? ? ? ? ? ? E]; auto; destruct l; discriminate.
    - inversion B as [E|? ? ? ? B' E|? ? ? ? ? ? ? ? B' C' X' E|? ? ? ? ? ? ? ? B' C' X' Y' E]; [destruct l; discriminate | | |];
        apply app_inj_tail in E as (-> & E); inversion E; subst; auto.
    - inversion B as [E|? ? ? ? B' E|? ? ? ? ? ? ? ? B' C' X' E|? ? ? ? ? ? ? ? B' C' X' Y' E]; [destruct l; discriminate | | |];
        apply app_inj_tail in E as (-> & E); inversion E; subst; auto.
      exfalso. rewrite (considered_fun _ _ _ C' C) in Y'. destruct X; auto.
    - inversion B as [E|? ? ? ? B' E|? ? ? ? ? ? ? ? B' C' X' E|? ? ? ? ? ? ? ? B' C' X' Y' E]; [destruct l; discriminate | | |];
        apply app_inj_tail in E as (-> & E); inversion E; subst; auto.
      + exfalso. rewrite (considered_fun _ _ _ C' C) in X'. destruct X'; auto.
      + f_equal. auto.
  Qed.

  (** What is posted *)
  Notation right := (right transform).
  Lemma handle_right s a d ev n : coherent transform s (a_cache a) -> Forall (right s) (a_log a) -> Forall (fun x => x_schema x = s) d ->
    coherent transform s (a_cache (fst (handle transform a d ev n))) /\ Forall (right s) (a_log (fst (handle transform a d ev n))).
  Proof.
    intros H R A. unfold handle. destruct d as [|x d]; [auto|].
    destruct (produce transform (a_cache a) ev (x :: d) empty_report) as [[r c']|] eqn:P.
    - destruct (produce_tells transform s _ _ _ _ _ [] _ H A (tells_empty _) P) as (T & H'). cbn [app] in T. pose proof (t_size _ _ _ T) as Z.
      destruct (r_size r =? 0)%N eqn:E; cbn [fst a_cache a_log]; (split; [exact H'|]); apply Forall_app; (split; [exact R|]); (constructor; [|constructor]); unfold UsageSpec.right; cbn [fst snd].
      + apply N.eqb_eq in E. destruct (told (worth transform s) (x :: d)); [reflexivity | cbn in Z; lia].
      + apply N.eqb_neq in E. split; [exact T|]. intros N. rewrite N in Z. cbn in Z. lia.
    - cbn [fst a_cache a_log]. split; [exact H|]. apply Forall_app. split; [exact R|]. repeat constructor.
  Qed.
  Lemma right_run s l : Forall (of_schema s) l -> coherent transform s (a_cache (run l)) /\ Forall (right s) (a_log (run l)) /\ Forall (fun x => x_schema x = s) (a_buffer (run l)).
  Proof.
    induction l as [|m l IH] using rev_ind; intros F.
    - cbn. split; [intros q r [] | split; constructor].
    - apply Forall_app in F as (F & M). inversion M as [|? ? M1 _]; subst. destruct (IH F) as (H & R & A). rewrite acts_app. cbn [UsageModel.acts].
      set (a := run l) in *. destruct m as [x e coin ev n|ev n]; cbn [UsageModel.act].
      + destruct (should_exclude c x e) as [[|]|er]; cbn [fst]; auto.
        destruct (should_sample hash c (a_once a) x coin) as [b s']. destruct b; [|cbn; auto].
        assert (A' : Forall (fun y => x_schema y = s) (a_buffer a ++ [x])) by (apply Forall_app; split; [exact A | repeat constructor; exact M1]).
        unfold buffer_add. destruct (Nat.leb (c_size c) (length (a_buffer a))); [|cbn; auto].
        destruct (handle_right s (mkagent [] s' (a_cache a) (a_log a)) (a_buffer a ++ [x]) ev n H R A') as (X & Y).
        split; [exact X|]. split; [exact Y|]. rewrite (proj1 (handle_buffer _ _ _ _)). constructor.
      + destruct (handle_right s (mkagent [] (a_once a) (a_cache a) (a_log a)) (a_buffer a) ev n H R A) as (X & Y).
        split; [exact X|]. split; [exact Y|]. rewrite (proj1 (handle_buffer _ _ _ _)). constructor.
  Qed.
  Lemma posted_right s l b : Forall (of_schema s) l -> In b (a_log (run l)) -> right s b.
  Proof. intros F I. destruct (right_run s l F) as (_ & R & _). rewrite Forall_forall in R. auto. Qed.

  Lemma handle_calm a d ev n : Forall (fun e : evictions => snd e = []) ev -> Forall (fun b => snd b <> Crashed) (a_log a) ->
    Forall (fun b => snd b <> Crashed) (a_log (fst (handle transform a d ev n))) /\ snd (handle transform a d ev n) <> Panic.
  Proof.
    intros E F. unfold handle. destruct d as [|x d]; [split; [exact F | discriminate]|].
    destruct (produce_calm transform (x :: d) (a_cache a) ev empty_report E) as ([r c'] & ->).
    destruct (r_size r =? 0)%N; cbn [fst snd a_log]; (split; [apply Forall_app; split; [exact F | repeat constructor; discriminate]|]); [discriminate|].
    unfold send. repeat (match goal with |- (match ?p with _ => _ end) <> _ => destruct p end); discriminate.
  Qed.
  Lemma calm_run l : Forall calm l -> Forall (fun b => snd b <> Crashed) (a_log (run l)).
  Proof.
    induction l as [|m l IH] using rev_ind; intros F; [constructor|].
    apply Forall_app in F as (F & M). inversion M as [|? ? M1 _]; subst. specialize (IH F). rewrite acts_app. cbn [UsageModel.acts].
    set (a := run l) in *. destruct m as [x e coin ev n|ev n]; cbn [UsageModel.act calm] in *.
    - destruct (should_exclude c x e) as [[|]|er]; cbn [fst]; auto. destruct (should_sample hash c (a_once a) x coin) as [b s']. destruct b; [|cbn; auto].
      unfold buffer_add. destruct (Nat.leb (c_size c) (length (a_buffer a))); [|cbn; auto]. apply handle_calm; [exact M1 | exact IH].
    - apply handle_calm; [exact M1 | exact IH].
  Qed.
  (** Fine means: nothing to do, or the console took the report *)
  Lemma fine a d ev n a' : handle transform a d ev n = (a', Fine) -> d <> [] ->
    (exists r, a_log a' = a_log a ++ [(d, Nothing r)]) \/ exists r body, a_log a' = a_log a ++ [(d, Posted r n)] /\ n = Status 200 body.
  Proof.
    intros H N. unfold handle in H. destruct d as [|x d]; [congruence|]. destruct (produce transform (a_cache a) ev (x :: d) empty_report) as [[r c']|]; [|discriminate].
    destruct (r_size r =? 0)%N; [injection H as <-; left; exists r; reflexivity|]. injection H as <- S. right. exists r.
    assert (X : exists body, n = Status 200 body).
    { destruct n as [|e|code body]; try discriminate S. exists body. f_equal. unfold send in S.
      destruct (N.eq_dec code 200) as [|D]; [assumption|]. exfalso.
      repeat (match type of S with (match ?p with _ => _ end) = _ => destruct p end; try discriminate S); congruence. }
    destruct X as (body & X). exists body. split; [reflexivity | exact X].
  Qed.
End Main.

(** The first of each key is always kept *)
Lemma first_kept hash c l k x e b ev n h : kept hash c l k -> considered hash c l h -> c_once c <> None -> ~ excluded c x e -> ~ In (key hash c x) h ->
  kept hash c (l ++ [Add x e b ev n]) (k ++ [x]).
Proof. intros K C O X N. eapply kept_in; eauto. left. split; [exact O|]. intros I. apply recent_sub in I. exact (N I). Qed.

(** Any sequence of insertions *)
Definition inserted (c : nat) (l : list N) : fifo := fold_left (fun s v => snd (fifo_insert s v)) l (fifo_new c).
Lemma inserted_rings c l : 0 < c -> rings (inserted c l) (rev l) /\ capacity (inserted c l) = c.
Proof.
  intros H. induction l as [|v l IH] using rev_ind; [split; [apply rings_new; exact H | reflexivity]|].
  unfold inserted. rewrite fold_left_app, rev_app_distr. cbn [fold_left rev app]. destruct IH as (R & C).
  destruct (rings_insert _ _ v R) as (_ & R' & C'). split; [exact R' | unfold inserted in *; congruence].
Qed.
Lemma windowed c l v : 0 < c -> (fst (fifo_insert (inserted c l) v) = true <-> fresh c (rev l) v) /\ length (order (inserted c l)) <= c.
Proof.
  intros H. destruct (inserted_rings c l H) as (R & C). destruct (rings_insert _ _ v R) as (A & _). rewrite C in A. split; [exact A|].
  pose proof (g_len _ _ R). lia.
Qed.

(** Wrong in the agent *)
Definition tr0 : string -> string -> result (option processed) := fun body schema => Ok (Some (mkproc body body [schema])).
Definition ex (schema body : string) : exec := mkexec schema None None 0 0 true 0 body None None None.
Definition lossy : config := mkconfig 0 None 0 (Some ([ByBody], 1)).
Definition same_body (body : string) (m : action) : Prop := match m with Add x _ _ _ _ => x_body x = body | Flush _ _ => True end.
Lemma lost hash n l : Forall (same_body "q") l ->
  a_log (acts tr0 hash lossy (agent_new lossy) (Add (ex "s" "q") (Ok false) false [] n :: l)) = [([ex "s" "q"], Posted (mkreport 1 [("q", mkinfo "q" None ["s"])] [mkentry "q" 0 true 0 0 None None]) n)].
Proof.
  intros F. change (Add (ex "s" "q") (Ok false) false [] n :: l) with ([Add (ex "s" "q") (Ok false) false [] n] ++ l). rewrite acts_app.
  set (a := acts tr0 hash lossy (agent_new lossy) [Add (ex "s" "q") (Ok false) false [] n]).
  assert (A : a = mkagent [] (Some (mkfifo [hash ["q"]] [hash ["q"]] 0 1)) [("q", Some (mkproc "q" "q" ["s"]))]
    [([ex "s" "q"], Posted (mkreport 1 [("q", mkinfo "q" None ["s"])] [mkentry "q" 0 true 0 0 None None]) n)]) by reflexivity.
  rewrite A. clear a A.
  enough (E : forall m l', same_body "q" m -> fst (act tr0 hash lossy (mkagent [] (Some (mkfifo [hash ["q"]] [hash ["q"]] 0 1)) [("q", Some (mkproc "q" "q" ["s"]))] l') m)
    = mkagent [] (Some (mkfifo [hash ["q"]] [hash ["q"]] 0 1)) [("q", Some (mkproc "q" "q" ["s"]))] l').
  { induction F as [|m l M F IH]; [reflexivity|]. cbn [acts]. rewrite E by exact M. exact IH. }
  intros m l' M. destruct m as [x e coin ev n'|ev n']; [|reflexivity]. cbn in M. cbn [act should_exclude lossy c_exclude].
  unfold should_sample. cbn [a_once lossy c_once map key_value]. rewrite M. unfold fifo_insert. cbn [seen nmem existsb]. rewrite N.eqb_refl. reflexivity.
Qed.
