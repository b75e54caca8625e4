(** The printed response tree reads back as the tree. *)
From Coq Require Import String Ascii List NArith ZArith Arith Bool Lia DecimalN DecimalString DecimalFacts Decimal.
From Verif Require Import StrOrd StrUtil JsonModel JsonWriterModel JsonText JsonWriterProofs ProjModel ProjSpec ProjProofs.
Import ListNotations.
Local Open Scope string_scope.

Lemma str_len_app a b : String.length (a ++ b) = String.length a + String.length b.
Proof. induction a as [|c a IH]; cbn; [reflexivity|]. rewrite IH. reflexivity. Qed.

(** ** Numbers *)
Definition numstop (s : string) : Prop :=
  match s with
  | EmptyString => True
  | String c _ => is_dig c = false /\ code c <> 46%N /\ code c <> 101%N /\ code c <> 69%N
                  /\ code c <> 43%N /\ code c <> 45%N
  end.

Lemma delimited_numstop s : delimited s -> numstop s.
Proof.
  destruct s as [|c s]; [trivial|]. cbn. unfold is_dig. intros [-> | [-> | ->]]; cbn; repeat split; discriminate.
Qed.

Lemma digits_app s rest : numstop rest ->
  digits (s ++ rest) = (fst (digits s), snd (digits s) ++ rest).
Proof.
  intros H. induction s as [|c s IH]; cbn [append digits].
  - destruct rest as [|c r]; [reflexivity|]. cbn in H. destruct H as [H _]. cbn [digits]. rewrite H. reflexivity.
  - rewrite IH. destruct (is_dig c); [|reflexivity]. destruct (digits s). reflexivity.
Qed.

Definition ext {A} (r : option (A * string)) (rest : string) : option (A * string) :=
  match r with Some (a, b) => Some (a, b ++ rest) | None => None end.

Lemma read_int_app s rest : numstop rest -> read_int (s ++ rest) = ext (read_int s) rest.
Proof.
  intros H. unfold read_int. rewrite digits_app by exact H. destruct (digits s) as [d r]. cbn [fst snd].
  destruct d as [|c d]; [reflexivity|]. destruct d; [reflexivity|]. destruct (N.eqb (code c) 48); reflexivity.
Qed.

Lemma read_frac_app s rest : numstop rest -> read_frac (s ++ rest) = ext (read_frac s) rest.
Proof.
  intros H. destruct s as [|c s].
  - cbn. destruct rest as [|c r]; [reflexivity|]. cbn in *. destruct H as (_ & H & _).
    apply N.eqb_neq in H. rewrite H. reflexivity.
  - cbn [append read_frac]. destruct (N.eqb (code c) 46); [|reflexivity].
    rewrite digits_app by exact H. destruct (digits s) as [d r]. cbn. destruct (nonempty d); reflexivity.
Qed.

Lemma sign_opt_app s rest : numstop rest -> sign_opt (s ++ rest) = (fst (sign_opt s), snd (sign_opt s) ++ rest).
Proof.
  intros H. destruct s as [|c s].
  - cbn. destruct rest as [|c r]; [reflexivity|]. cbn in *. destruct H as (_ & _ & _ & _ & H1 & H2).
    apply N.eqb_neq in H1. apply N.eqb_neq in H2. rewrite H1, H2. reflexivity.
  - cbn. destruct (_ || _)%bool; reflexivity.
Qed.

Lemma read_exp_app s rest : numstop rest -> read_exp (s ++ rest) = ext (read_exp s) rest.
Proof.
  intros H. destruct s as [|c s].
  - cbn. destruct rest as [|c r]; [reflexivity|]. cbn in *. destruct H as (_ & _ & H1 & H2 & _).
    apply N.eqb_neq in H1. apply N.eqb_neq in H2. rewrite H1, H2. reflexivity.
  - cbn [append read_exp]. destruct (_ || _)%bool; [|reflexivity].
    rewrite sign_opt_app by exact H. destruct (sign_opt s) as [g r]. cbn [fst snd].
    rewrite digits_app by exact H. destruct (digits r) as [d r']. cbn. destruct (nonempty d); reflexivity.
Qed.

Lemma read_number_app s rest : s <> "" -> numstop rest -> read_number (s ++ rest) = ext (read_number s) rest.
Proof.
  intros Hs H. unfold read_number. destruct s as [|c s]; [congruence|]. cbn [append].
  change (String c (s ++ rest)) with (String c s ++ rest).
  destruct (N.eqb (code c) 45); cbv beta iota zeta.
  1: generalize s as s'; generalize (String c "") as m; intros m s'.
  2: generalize (String c s) as s'; intros s'.
  all: rewrite read_int_app by exact H; destruct (read_int s') as [[i s1]|]; [|reflexivity]; cbn [ext];
  rewrite read_frac_app by exact H; destruct (read_frac s1) as [[f s2]|]; [|reflexivity]; cbn [ext];
  rewrite read_exp_app by exact H; destruct (read_exp s2) as [[e s3]|]; reflexivity.
Qed.

(** A JSON number. *)
Definition json_number (s : string) : Prop := read_number s = Some (s, "").

Lemma number_head c r : read_number (String c r) <> None -> (is_dig c || N.eqb (code c) 45)%bool = true.
Proof.
  unfold read_number. destruct (N.eqb (code c) 45) eqn:E; [rewrite orb_true_r; reflexivity|].
  unfold read_int. cbn [digits]. destruct (is_dig c); [reflexivity|]. intros H. exfalso. apply H. reflexivity.
Qed.

Definition num_lead (c : ascii) : bool := (is_dig c || N.eqb (code c) 45)%bool.
Lemma num_lead_cases c : num_lead c = true ->
  is_jws c = false /\ N.eqb (code c) 123 = false /\ N.eqb (code c) 91 = false /\ N.eqb (code c) 34 = false
  /\ N.eqb (code c) 110 = false /\ N.eqb (code c) 116 = false /\ N.eqb (code c) 102 = false.
Proof.
  intros H.
  assert (Q : forall c, (negb (num_lead c) ||
     (negb (is_jws c) && negb (N.eqb (code c) 123) && negb (N.eqb (code c) 91) && negb (N.eqb (code c) 34)
      && negb (N.eqb (code c) 110) && negb (N.eqb (code c) 116) && negb (N.eqb (code c) 102)))%bool = true).
  { apply all_ascii. vm_compute. reflexivity. }
  specialize (Q c). rewrite H in Q. cbn [negb orb] in Q.
  repeat match goal with X : (_ && _)%bool = true |- _ => apply andb_prop in X; destruct X end.
  repeat match goal with X : negb _ = true |- _ => apply negb_true_iff in X end.
  repeat split; assumption.
Qed.

Lemma number_text s : json_number s -> text_of s (JNum s).
Proof.
  intros H. unfold json_number in H. assert (s <> "") as Hs by (intros ->; discriminate H).
  split; [exact Hs|]. intros rest fuel D _.
  pose proof (read_number_app s rest Hs (delimited_numstop _ D)) as R. rewrite H in R. cbn in R.
  destruct s as [|c s]; [congruence|]. cbn [append] in *.
  assert (NL : num_lead c = true).
  { apply (number_head c s). rewrite H. discriminate. }
  destruct (num_lead_cases c NL) as (A & B & C & D1 & E & F & G).
  cbn [read_value]. rewrite skip_ws_cons by exact A. rewrite B, C, D1, E, F, G, R. reflexivity.
Qed.

(** decimal text of integers *)
Definition no_zero_head (s : string) : Prop :=
  match s with String c (String _ _) => N.eqb (code c) 48 = false | _ => True end.

Lemma digits_all s : all_chars is_digit s = true -> digits s = (s, "").
Proof.
  induction s as [|c s IH]; cbn; [reflexivity|]. intros H. apply andb_prop in H. destruct H as [H1 H2].
  unfold is_dig, code. unfold is_digit in H1. rewrite H1, IH by exact H2. reflexivity.
Qed.

Lemma N_to_dec_no_zero n : no_zero_head (N_to_dec n).
Proof.
  unfold N_to_dec.
  assert (H : N.to_uint n = unorm (N.to_uint n)).
  { rewrite <- (Unsigned.of_to n) at 1. apply Unsigned.to_of. }
  rewrite H. unfold unorm.
  assert (G : forall d, match nzhead d with Nil => True | D0 _ => False | _ => True end).
  { induction d; cbn; auto. }
  specialize (G (N.to_uint n)). destruct (nzhead (N.to_uint n)) as [|d|d|d|d|d|d|d|d|d|d];
    [exact I|destruct G|..]; cbn; destruct (NilEmpty.string_of_uint d); exact I || reflexivity.
Qed.

Lemma read_number_digits m s :
  (m = "" \/ m = String (chr 45) "") ->
  all_chars is_digit s = true -> s <> "" -> no_zero_head s -> read_number (m ++ s) = Some (m ++ s, "").
Proof.
  intros Hm Hd Hs Hz.
  assert (R : read_int s = Some (s, "")).
  { unfold read_int. rewrite digits_all by exact Hd. destruct s as [|c [|d s]]; [congruence|reflexivity|].
    cbn in Hz. rewrite Hz. reflexivity. }
  destruct Hm as [-> | ->].
  - unfold read_number. cbn [append]. destruct s as [|c s]; [congruence|].
    assert (N.eqb (code c) 45 = false) as ->.
    { cbn in Hd. apply andb_prop in Hd. destruct Hd as [Hd _]. unfold is_digit in Hd.
      unfold code. apply andb_prop in Hd. destruct Hd as [Hd _]. apply N.leb_le in Hd.
      apply N.eqb_neq. intros E. rewrite E in Hd. apply Hd. reflexivity. }
    rewrite R. cbn [read_frac read_exp append]. rewrite string_app_nil_r. reflexivity.
  - unfold read_number. cbn [append]. change (N.eqb (code (chr 45)) 45) with true. cbv iota.
    rewrite R. cbn. rewrite string_app_nil_r. reflexivity.
Qed.

Lemma dec_number n : json_number (N_to_dec n).
Proof.
  apply (read_number_digits "" (N_to_dec n)); auto using N_to_dec_digits, N_to_dec_nonempty, N_to_dec_no_zero.
Qed.
Lemma i64_number z : json_number (i64_text z).
Proof.
  destruct z; cbn [i64_text].
  - reflexivity.
  - apply dec_number.
  - apply (read_number_digits (String (chr 45) "") (N_to_dec (Npos p)));
      auto using N_to_dec_digits, N_to_dec_nonempty, N_to_dec_no_zero.
Qed.

(** ** Words *)
Lemma strip_app p rest : strip p (p ++ rest) = Some rest.
Proof. induction p as [|c p IH]; cbn; [reflexivity|]. rewrite Ascii.eqb_refl. exact IH. Qed.
Lemma null_text : text_of "null" JNull.
Proof. split; [discriminate|]. intros rest fuel _ _. destruct rest; reflexivity. Qed.
Lemma true_text : text_of "true" (JBool true).
Proof. split; [discriminate|]. intros rest fuel _ _. destruct rest; reflexivity. Qed.
Lemma false_text : text_of "false" (JBool false).
Proof. split; [discriminate|]. intros rest fuel _ _. destruct rest; reflexivity. Qed.

(** ** Arrays and objects *)
Lemma read_value_head fuel s v r :
  read_value fuel s = Some (v, r) ->
  exists c t, skip_ws s = String c t /\ N.eqb (code c) 93 = false /\ N.eqb (code c) 125 = false.
Proof.
  destruct fuel as [|fuel]; [discriminate|]. cbn [read_value].
  destruct (skip_ws s) as [|c t]; [discriminate|]. intros H. exists c, t. split; [reflexivity|].
  destruct (N.eqb (code c) 93) eqn:E1.
  { apply N.eqb_eq in E1. rewrite E1 in H. cbn in H.
    destruct (read_number (String c t)) eqn:R; [|discriminate H].
    assert (X : num_lead c = true) by (apply (number_head c t); congruence).
    unfold num_lead, is_dig in X. rewrite E1 in X. discriminate X. }
  destruct (N.eqb (code c) 125) eqn:E2; [|auto].
  apply N.eqb_eq in E2. rewrite E2 in H. cbn in H.
  destruct (read_number (String c t)) eqn:R; [|discriminate H].
  assert (X : num_lead c = true) by (apply (number_head c t); congruence).
  unfold num_lead, is_dig in X. rewrite E2 in X. discriminate X.
Qed.

Lemma comma_delim s : delimited ("," ++ s). Proof. cbn. auto. Qed.
Lemma brack_delim s : delimited ("]" ++ s). Proof. cbn. auto. Qed.
Lemma brace_delim s : delimited ("}" ++ s). Proof. cbn. auto. Qed.

Lemma read_items_ok F rest : forall ss vs n,
  Forall2 (fun s v => text_of s v /\ String.length s <= F) ss vs ->
  ss <> [] -> length ss <= n ->
  read_items (read_value (S F)) n (join "," ss ++ "]" ++ rest) = Some (vs, rest).
Proof.
  induction ss as [|s ss IH]; intros vs n H Hne Hn; [congruence|].
  inversion H as [|? v ? vs' [[Ht1 Ht2] Hl] H']; subst. destruct n as [|n]; [cbn in Hn; lia|].
  cbn [length] in Hn.
  destruct ss as [|s2 ss].
  - inversion H'; subst. cbn [join read_items].
    rewrite Ht2 by (auto using brack_delim).
    cbn. reflexivity.
  - change (join "," (s :: s2 :: ss)) with (s ++ "," ++ join "," (s2 :: ss)).
    cbn [read_items]. rewrite !app_assoc_s.
    rewrite Ht2 by (auto using comma_delim).
    change ("," ++ join "," (s2 :: ss) ++ "]" ++ rest) with (String "," (join "," (s2 :: ss) ++ "]" ++ rest)).
    rewrite skip_ws_cons by reflexivity.
    change (N.eqb (code ",") 93) with false. change (N.eqb (code ",") 44) with true. cbv iota.
    rewrite (IH vs' n H') by (try discriminate; cbn in *; lia). reflexivity.
Qed.

Definition member_text (m : string) (kv : string * jval) : Prop :=
  exists s, m = quoted (fst kv) ++ ":" ++ s /\ text_of s (snd kv).

Lemma read_members_ok F rest : forall ms kvs n,
  Forall2 (fun m kv => member_text m kv /\ String.length m <= F) ms kvs ->
  ms <> [] -> length ms <= n ->
  read_members (read_value (S F)) n (join "," ms ++ "}" ++ rest) = Some (kvs, rest).
Proof.
  induction ms as [|m ms IH]; intros kvs n H Hne Hn; [congruence|].
  inversion H as [|? kv ? kvs' [(s & Em & [Ht1 Ht2]) Hl] H']; subst kvs. destruct kv as [k v]. cbn [fst snd] in Em, Ht2.
  destruct n as [|n]; [cbn in Hn; lia|]. cbn [length] in Hn.
  assert (Hs : String.length s <= F).
  { rewrite Em, !str_len_app in Hl. cbn in Hl. lia. }
  assert (Hd : forall t, delimited t -> 
     read_members (read_value (S F)) (S n) (m ++ t) =
     match skip_ws t with
     | String c r =>
         if N.eqb (code c) 125 then Some ([(k, v)], r)
         else if N.eqb (code c) 44 then
                match read_members (read_value (S F)) n r with
                | Some (l, s) => Some ((k, v) :: l, s)
                | None => None
                end
         else None
     | EmptyString => None
     end).
  { intros t D. rewrite Em. unfold quoted. rewrite !app_assoc_s. cbn [append read_members].
    rewrite skip_ws_cons by reflexivity. change (N.eqb (code (chr 34)) 34) with true. cbv iota.
    rewrite read_escape.
    rewrite skip_ws_cons by reflexivity. change (N.eqb (code ":") 58) with true. cbv iota.
    rewrite Ht2 by assumption. reflexivity. }
  destruct ms as [|m2 ms].
  - inversion H'; subst. cbn [join]. rewrite Hd by apply brace_delim. reflexivity.
  - change (join "," (m :: m2 :: ms)) with (m ++ "," ++ join "," (m2 :: ms)).
    rewrite !app_assoc_s.
    rewrite Hd by apply comma_delim.
    change ("," ++ join "," (m2 :: ms) ++ "}" ++ rest) with (String "," (join "," (m2 :: ms) ++ "}" ++ rest)).
    rewrite skip_ws_cons by reflexivity.
    change (N.eqb (code ",") 125) with false. change (N.eqb (code ",") 44) with true. cbv iota.
    rewrite (IH kvs' n H') by (try discriminate; cbn in *; lia). reflexivity.
Qed.

Lemma join_len ss s : In s ss -> String.length s <= String.length (join "," ss).
Proof.
  induction ss as [|x ss IH]; [intros []|]. destruct ss as [|y ss].
  - intros [-> | []]. cbn. lia.
  - change (join "," (x :: y :: ss)) with (x ++ "," ++ join "," (y :: ss)). rewrite !str_len_app.
    intros [-> | H]; [lia|]. specialize (IH H). lia.
Qed.
Lemma join_count ss : Forall (fun s => s <> "") ss -> length ss <= String.length (join "," ss).
Proof.
  induction ss as [|x ss IH]; intros F; [cbn; lia|]. inversion F as [|? ? Hx Hs]; subst.
  assert (1 <= String.length x) by (destruct x; [congruence|cbn; lia]).
  destruct ss as [|y ss]; [cbn; lia|].
  change (join "," (x :: y :: ss)) with (x ++ "," ++ join "," (y :: ss)). rewrite !str_len_app.
  specialize (IH Hs). cbn [length] in *. lia.
Qed.

Lemma Forall2_In_l {A B} (R : A -> B -> Prop) l l' x : Forall2 R l l' -> In x l -> exists y, In y l' /\ R x y.
Proof.
  induction 1 as [|a b l l' H1 H2 IH]; [intros []|]. intros [-> | H].
  - exists b. split; [left; reflexivity|exact H1].
  - destruct (IH H) as (y & A1 & A2). exists y. split; [right; exact A1|exact A2].
Qed.

Lemma array_text ss vs : Forall2 text_of ss vs -> text_of ("[" ++ join "," ss ++ "]") (JArr vs).
Proof.
  intros H. split; [discriminate|]. intros rest fuel D L.
  rewrite !str_len_app in L. cbn [String.length] in L.
  rewrite !app_assoc_s. cbn [append read_value]. rewrite skip_ws_cons by reflexivity.
  change (N.eqb (code "[") 123) with false. change (N.eqb (code "[") 91) with true. cbv iota.
  destruct fuel as [|F]; [lia|].
  destruct ss as [|s ss].
  - inversion H; subst. cbn. reflexivity.
  - assert (R : read_items (read_value (S F)) (S F) (join "," (s :: ss) ++ "]" ++ rest) = Some (vs, rest)).
    { apply read_items_ok.
      - assert (Q : forall x, In x (s :: ss) -> String.length x <= F).
        { intros x Hx. apply join_len in Hx. lia. }
        clear -H Q. revert Q. induction H as [|a b l l' H1 H2 IH]; intros Q; constructor.
        + split; [exact H1|]. apply Q. left. reflexivity.
        + apply IH. intros x Hx. apply Q. right. exact Hx.
      - discriminate.
      - transitivity (String.length (join "," (s :: ss))); [|lia]. apply join_count.
        apply Forall_forall. intros x Hx. destruct (Forall2_In_l _ _ _ _ H Hx) as (y & _ & [Hy _]). exact Hy. }
    change ("]" ++ rest) with (String "]" rest) in R.
    cbn [append].
    inversion H as [|? v0 ? vs0 [Hs1 Hs2] H2]; subst.
    destruct (read_value_head (S F) (join "," (s :: ss) ++ String "]" rest)) with (v := v0)
      (r := match ss with [] => String "]" rest | _ => "," ++ join "," ss ++ "]" ++ rest end)
      as (c & t & E1 & E2 & E3).
    { destruct ss as [|s2 ss].
      - cbn [join]. apply Hs2; [cbn; auto|].
        pose proof (join_len [s] s (or_introl eq_refl)). lia.
      - change (join "," (s :: s2 :: ss)) with (s ++ "," ++ join "," (s2 :: ss)). rewrite !app_assoc_s.
        apply Hs2; [cbn; auto|].
        pose proof (join_len (s :: s2 :: ss) s (or_introl eq_refl)). lia. }
    rewrite E1, E2. rewrite R. reflexivity.
Qed.

Lemma object_text ms kvs : Forall2 member_text ms kvs -> text_of ("{" ++ join "," ms ++ "}") (JObj kvs).
Proof.
  intros H. split; [discriminate|]. intros rest fuel D L.
  rewrite !str_len_app in L. cbn [String.length] in L.
  rewrite !app_assoc_s. cbn [append read_value]. rewrite skip_ws_cons by reflexivity.
  change (N.eqb (code "{") 123) with true. cbv iota.
  destruct fuel as [|F]; [lia|].
  destruct ms as [|s ms].
  - inversion H; subst. cbn. reflexivity.
  - assert (R : read_members (read_value (S F)) (S F) (join "," (s :: ms) ++ "}" ++ rest) = Some (kvs, rest)).
    { apply read_members_ok.
      - assert (Q : forall x, In x (s :: ms) -> String.length x <= F).
        { intros x Hx. apply join_len in Hx. lia. }
        clear -H Q. revert Q. induction H as [|a b l l' H1 H2 IH]; intros Q; constructor.
        + split; [exact H1|]. apply Q. left. reflexivity.
        + apply IH. intros x Hx. apply Q. right. exact Hx.
      - discriminate.
      - transitivity (String.length (join "," (s :: ms))); [|lia]. apply join_count.
        apply Forall_forall. intros x Hx. destruct (Forall2_In_l _ _ _ _ H Hx) as (y & _ & (u & -> & _)).
        discriminate. }
    change ("}" ++ rest) with (String "}" rest) in R. cbn [append].
    assert (E : exists r, join "," (s :: ms) ++ String "}" rest = String (chr 34) r).
    { inversion H as [|? v0 ? vs0 (u & -> & _) H2]; subst.
      destruct ms as [|s2 ms]; cbn [join]; unfold quoted; cbn [append]; eexists; reflexivity. }
    destruct E as [r E]. rewrite E in R |- *. rewrite skip_ws_cons by reflexivity.
    change (N.eqb (code (chr 34)) 125) with false. cbv iota. rewrite R. reflexivity.
Qed.

Lemma text_decodes s v : text_of s v -> decode s = Some v.
Proof.
  intros [_ H]. unfold decode. rewrite <- (string_app_nil_r s) at 2.
  rewrite H; [reflexivity|exact I|lia].
Qed.

(** ** The response *)
Lemma plain_quoted s : plain s = true -> quoted s = q1 ++ s ++ q1.
Proof.
  intros H. unfold quoted, q1. cbn [append]. f_equal. f_equal.
  induction s as [|c s IH]; [reflexivity|]. unfold plain in *. cbn in H. apply andb_prop in H. destruct H as [H1 H2].
  cbn [escape]. rewrite tab_needs in H1. destruct (quote_tab c); [|discriminate H1]. f_equal. apply IH. exact H2.
Qed.

Section T.
  Variable ryu : N -> string.
  Variable raw : string -> jval.
  Hypothesis ryu_ok : forall b, finite b = true -> json_number (ryu b).

  (** every raw JSON text in the data is one *)
  Fixpoint data_ok (v : value) : Prop :=
    match v with
    | VRaw s => text_of s (raw s)
    | VArr l => fold_right (fun v P => data_ok v /\ P) True l
    | VObj o => fold_right (fun kv P => data_ok (snd kv) /\ P) True o
    | _ => True
    end.

  (** keys and type names need no escaping *)
  Fixpoint out_ok (t : out) : Prop :=
    match t with
    | ONull => True
    | OLeaf v => data_ok v
    | OName n => plain n = true
    | OArr l => fold_right (fun t P => out_ok t /\ P) True l
    | OObj o => fold_right (fun kv P => plain (fst kv) = true /\ out_ok (snd kv) /\ P) True o
    end.

  Lemma value_text v : data_ok v -> text_of (print_value ryu v) (value_json ryu raw v).
  Proof using ryu_ok.
    induction v as [|fbits|iz|un|bb|str|rw|l IH|o IH] using value_ind'; intros H; cbn [print_value value_json].
    - apply null_text.
    - unfold f64_text. destruct (finite fbits) eqn:E; [apply number_text, ryu_ok, E|apply null_text].
    - apply number_text, i64_number.
    - apply number_text, dec_number.
    - destruct bb; [apply true_text|apply false_text].
    - apply quoted_text.
    - exact H.
    - apply array_text. cbn in H. induction IH as [|x l Hx Hl IH']; cbn [map]; constructor.
      + apply Hx. apply H.
      + apply IH'. apply H.
    - apply object_text. cbn in H. induction IH as [|x o Hx Ho IH']; cbn [map]; constructor.
      + exists (print_value ryu (snd x)). split; [reflexivity|]. apply Hx. apply H.
      + apply IH'. apply H.
  Qed.

  Section OutInd.
    Variable P : out -> Prop.
    Hypothesis H1 : P ONull.
    Hypothesis H2 : forall v, P (OLeaf v).
    Hypothesis H3 : forall n, P (OName n).
    Hypothesis H4 : forall l, Forall P l -> P (OArr l).
    Hypothesis H5 : forall o, Forall (fun kv => P (snd kv)) o -> P (OObj o).
    Fixpoint out_ind' (t : out) : P t :=
      match t with
      | ONull => H1 | OLeaf v => H2 v | OName n => H3 n
      | OArr l => H4 l ((fix go l : Forall P l := match l with [] => Forall_nil _ | x :: r => Forall_cons x (out_ind' x) (go r) end) l)
      | OObj o => H5 o ((fix go o : Forall (fun kv => P (snd kv)) o :=
                           match o with [] => Forall_nil _ | x :: r => Forall_cons x (out_ind' (snd x)) (go r) end) o)
      end.
  End OutInd.

  Lemma out_text t : out_ok t -> text_of (print ryu t) (out_json ryu raw t).
  Proof using ryu_ok.
    induction t as [|v|n|l IH|o IH] using out_ind'; intros H; cbn [print out_json].
    - apply null_text.
    - apply value_text. exact H.
    - rewrite <- plain_quoted by exact H. apply quoted_text.
    - apply array_text. cbn in H. induction IH as [|x l Hx Hl IH']; cbn [map]; constructor.
      + apply Hx. apply H.
      + apply IH'. apply H.
    - apply object_text. cbn in H. induction IH as [|x o Hx Ho IH']; cbn [map]; constructor.
      + exists (print ryu (snd x)). cbn [fst snd]. split.
        * rewrite plain_quoted by apply H. rewrite !app_assoc_s. reflexivity.
        * apply Hx. apply H.
      + apply IH'. apply H.
  Qed.

  (** The whole document. *)
  Definition doc (t : jval) (errs ext : option jval) : jval :=
    JObj ((("data", t) :: match errs with Some e => [("errors", e)] | None => [] end)
          ++ match ext with Some e => [("extensions", e)] | None => [] end)%list.

  Lemma doc_text t es ej ext xj :
    out_ok t ->
    match es, ej with Some s, Some j => text_of s j | None, None => True | _, _ => False end ->
    match ext, xj with Some s, Some j => text_of s j | None, None => True | _, _ => False end ->
    decode ("{" ++ (q1 ++ "data" ++ q1 ++ ":" ++ print ryu t)
      ++ (match es with None => "" | Some s => "," ++ q1 ++ "errors" ++ q1 ++ ":" ++ s end)
      ++ (match ext with None => "" | Some e => "," ++ q1 ++ "extensions" ++ q1 ++ ":" ++ e end) ++ "}")
    = Some (doc (out_json ryu raw t) ej xj).
  Proof using ryu_ok.
    intros Ht He Hx. apply text_decodes.
    set (m := fun k s => q1 ++ k ++ q1 ++ ":" ++ s).
    set (ms := (m "data" (print ryu t) :: match es with Some s => [m "errors" s] | None => [] end
               ++ match ext with Some s => [m "extensions" s] | None => [] end)%list).
    assert (Mt : forall k s j, plain k = true -> text_of s j -> member_text (m k s) (k, j)).
    { intros k s j Hk Hs. exists s. cbn [fst snd]. split; [|exact Hs].
      rewrite plain_quoted by exact Hk. unfold m. rewrite !app_assoc_s. reflexivity. }
    replace ("{" ++ _) with ("{" ++ join "," ms ++ "}").
    - apply object_text. unfold ms, doc. cbn [List.app]. constructor.
      + apply Mt; [reflexivity|]. apply out_text. exact Ht.
      + destruct es as [s|], ej as [j|]; try destruct He; destruct ext as [x|], xj as [y|]; try destruct Hx;
          cbn [List.app]; repeat constructor; try (apply Mt; [reflexivity|assumption]).
        all: try (apply Mt; [reflexivity|split; assumption]).
    - unfold ms, m. destruct es as [s|], ext as [x|]; cbn [List.app join];
        rewrite ?app_assoc_s; reflexivity.
  Qed.
End T.
