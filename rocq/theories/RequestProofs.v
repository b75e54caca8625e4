(** Proofs about operation names and request bodies. *)
From Coq Require Import String Ascii List NArith ZArith Arith Bool Lia.
From Verif Require Import StrOrd StrUtil JsonModel JsonWriterModel JsonText JsonWriterProofs ProjModel ProjSpec ProjProofs ProjTextProofs
  RequestModel RequestSpec.
Import ListNotations.
Local Open Scope string_scope.

(** ** Forwarding configuration *)
Lemma mem_In x l : mem x l = true <-> In x l.
Proof.
  unfold mem. rewrite existsb_exists. split.
  - intros (y & H & E). apply String.eqb_eq in E. subst. exact H.
  - intros H. exists x. split; [exact H|apply String.eqb_refl].
Qed.
Lemma fw_only_mem l s : should_forward (fw_only l) s = mem s l.
Proof. destruct l; reflexivity. Qed.

Definition override (overrides : list (string * option bool)) (s : string) (v : bool) : Prop :=
  In (s, Some v) overrides.

Lemma in_over (overrides : list (string * option bool)) s (b : bool) :
  In s (map fst (filter (fun kv => match snd kv with Some x => Bool.eqb x b | _ => false end) overrides))
  <-> override overrides s b.
Proof.
  unfold override. rewrite in_map_iff. split.
  - intros ([k v] & E & H). cbn in E. subst k. apply filter_In in H. destruct H as [H1 H2]. cbn in H2.
    destruct v as [x|]; [|discriminate]. apply Bool.eqb_prop in H2. subst. exact H1.
  - intros H. exists (s, Some b). split; [reflexivity|]. apply filter_In. split; [exact H|]. cbn. apply Bool.eqb_reflx.
Qed.

Lemma filter_ext' {A} (f g : A -> bool) l : (forall x, f x = g x) -> filter f l = filter g l.
Proof. intros H. induction l as [|x l IH]; cbn; [reflexivity|]. rewrite H, IH. reflexivity. Qed.

(** Forwarding is on exactly where the configuration says so. *)
Lemma forward_ok all overrides known s :
  In s known ->
  (should_forward (fw_new all overrides known) s = true <->
   if all then ~ override overrides s false else override overrides s true).
Proof.
  intros K. unfold fw_new. destruct all.
  - rewrite (filter_ext' _ (fun kv => match snd kv with Some x => Bool.eqb x false | _ => false end))
      by (intros [k [[]|]]; reflexivity).
    rewrite <- in_over. set (ex := map fst _). unfold fw_all_except. destruct ex as [|e ex'] eqn:E.
    + cbn. split; [intros _ []|reflexivity].
    + rewrite fw_only_mem, mem_In, filter_In, negb_true_iff, <- not_true_iff_false, mem_In. intuition.
  - rewrite (filter_ext' _ (fun kv => match snd kv with Some x => Bool.eqb x true | _ => false end))
      by (intros [k [[]|]]; reflexivity).
    rewrite fw_only_mem, mem_In, in_over. reflexivity.
Qed.

(** ** Names *)
Fixpoint all_name (s : string) : bool := match s with String c r => (name_char c && all_name r)%bool | EmptyString => true end.
Lemma valid_name_eq s : valid_name s = match s with String c r => (name_start c && all_name r)%bool | EmptyString => false end.
Proof. destruct s; reflexivity. Qed.
Lemma all_name_app a b : all_name (a ++ b) = (all_name a && all_name b)%bool.
Proof. induction a as [|c a IH]; cbn; [reflexivity|]. rewrite IH, andb_assoc. reflexivity. Qed.
Lemma all_name_digits s : all_chars is_digit s = true -> all_name s = true.
Proof.
  induction s as [|c s IH]; cbn; [reflexivity|]. intros H. apply andb_prop in H. destruct H as [H1 H2].
  rewrite IH by exact H2. unfold name_char. change (is_dig c) with (is_digit c). rewrite H1, orb_true_r. reflexivity.
Qed.
Lemma valid_name_app a b : valid_name a = true -> all_name b = true -> valid_name (a ++ b) = true.
Proof.
  rewrite !valid_name_eq. destruct a as [|c a]; [discriminate|]. cbn [append]. rewrite all_name_app.
  intros H Hb. rewrite Hb, andb_true_r. exact H.
Qed.
Lemma generate_valid f client s id n : generate f client s id = Some n -> (0 <= id)%Z ->
  (forall c, client = Some c -> valid_name c = true) -> valid_name n = true.
Proof.
  unfold generate. destruct (should_forward f s); [|discriminate]. destruct client as [c|]; [|discriminate].
  intros E Hid Hc. injection E as <-. apply valid_name_app; [auto|]. cbn [append all_name name_char].
  change (name_char "_") with true. cbn [andb].
  destruct id; cbn [i64_text].
  - reflexivity.
  - apply all_name_digits. apply N_to_dec_digits.
  - lia.
Qed.

Lemma name_plain s : all_name s = true -> plain s = true.
Proof.
  unfold plain. induction s as [|c s IH]; cbn; [reflexivity|]. intros H. apply andb_prop in H. destruct H as [H1 H2].
  rewrite IH by exact H2. rewrite andb_true_r.
  assert (Q : forall c, (negb (name_char c) || negb (needs_escape c))%bool = true) by (apply all_ascii; vm_compute; reflexivity).
  specialize (Q c). rewrite H1 in Q. exact Q.
Qed.
Lemma valid_plain s : valid_name s = true -> plain s = true.
Proof.
  rewrite valid_name_eq. destruct s as [|c s]; [discriminate|]. intros H. apply andb_prop in H. destruct H as [H1 H2].
  apply name_plain. cbn [all_name]. unfold name_char. rewrite H1, H2. reflexivity.
Qed.

(** ** Inserting the name *)
Lemma escape_named name pos input :
  (pos = 0 -> starts_with "{" input = true) ->
  write_named_operation name pos input = option_map quoted (ws_query name pos input).
Proof.
  intros H. unfold write_named_operation, ws_query.
  destruct (Nat.eqb pos 0 && starts_with "{" input)%bool eqn:E.
  - cbn [option_map]. unfold quoted. rewrite !escape_app. cbn [append]. rewrite !app_assoc_s. reflexivity.
  - destruct (Nat.ltb (String.length input) pos); [reflexivity|]. cbn [option_map].
    assert (P : Nat.ltb 0 pos = true).
    { apply Nat.ltb_lt. destruct pos; [|lia]. rewrite H in E by reflexivity. discriminate. }
    rewrite P. unfold quoted. rewrite !escape_app. cbn [append]. rewrite !app_assoc_s. reflexivity.
Qed.

Lemma starts_with_brace s : starts_with "{" s = true -> exists r, s = String "{" r.
Proof.
  destruct s as [|c s]; [discriminate|]. cbn [starts_with]. intros H. rewrite andb_true_r in H. apply Ascii.eqb_eq in H. subst. eauto.
Qed.

Lemma strip_prefix_app p s : strip_prefix p (p ++ s) = Some s.
Proof. induction p as [|c p IH]; cbn; [reflexivity|]. rewrite Ascii.eqb_refl. exact IH. Qed.

Lemma take_name_app n r : all_name n = true -> match r with String c _ => name_char c = false | _ => True end ->
  take_name (n ++ r) = (n, r).
Proof.
  intros Hn Hr. induction n as [|c n IH]; cbn [append].
  - destruct r as [|c r]; [reflexivity|]. cbn. rewrite Hr. reflexivity.
  - cbn in Hn. apply andb_prop in Hn. destruct Hn as [H1 H2]. cbn [take_name]. rewrite H1, (IH H2). reflexivity.
Qed.
Lemma take_str_app a b : take_str (String.length a) (a ++ b) = a.
Proof. induction a as [|c a IH]; cbn; [destruct b; reflexivity|]. rewrite IH. reflexivity. Qed.
Lemma drop_str_app a b : drop_str (String.length a) (a ++ b) = b.
Proof. induction a as [|c a IH]; cbn; [destruct b; reflexivity|]. exact IH. Qed.

(** a body starts with an opening parenthesis or brace *)
Definition opens (r : string) : Prop := exists c r', r = String c r' /\ (c = "("%char \/ c = "{"%char).
Lemma opens_name r : opens r -> match r with String c _ => name_char c = false | _ => True end.
Proof. intros (c & r' & -> & [-> | ->]); reflexivity. Qed.
Lemma opens_skip r : opens r -> skip_sp r = r.
Proof. intros (c & r' & -> & [-> | ->]); reflexivity. Qed.
Lemma opens_start r : opens r -> (starts_with "(" r || starts_with "{" r)%bool = true.
Proof. intros (c & r' & -> & [-> | ->]); reflexivity. Qed.

Lemma position_kind k r : opens r -> name_write_position (kind_text k ++ r) = String.length (kind_text k).
Proof.
  intros H. unfold name_write_position, pos_for.
  destruct k; cbn [kind_text].
  - rewrite (strip_prefix_app "query"), opens_start by exact H. reflexivity.
  - change (strip_prefix "query" ("mutation" ++ r)) with (@None string). cbv iota.
    rewrite (strip_prefix_app "mutation"), opens_start by exact H. reflexivity.
  - change (strip_prefix "query" ("subscription" ++ r)) with (@None string).
    change (strip_prefix "mutation" ("subscription" ++ r)) with (@None string). cbv iota.
    rewrite (strip_prefix_app "subscription"), opens_start by exact H. reflexivity.
Qed.

Lemma kind_all_name k : all_name (kind_text k) = true. Proof. destruct k; reflexivity. Qed.
Lemma kind_of_text k : kind_of (kind_text k) = Some k. Proof. destruct k; reflexivity. Qed.
Lemma kind_head k s : exists c r, kind_text k ++ s = String c r /\ N.eqb (code c) 32 = false /\ N.eqb (code c) 123 = false.
Proof. destruct k; cbn; eauto. Qed.

Lemma read_header_kind k s : read_header (kind_text k ++ s) =
  let '(k', r) := take_name (kind_text k ++ s) in
  match kind_of k' with
  | None => None
  | Some k => match skip_sp r with
              | String d _ as r => if name_start d then let '(n, r) := take_name r in Some (k, Some n, skip_sp r) else Some (k, None, r)
              | EmptyString => Some (k, None, "")
              end
  end.
Proof.
  unfold read_header. destruct (kind_head k s) as (c & r & E & A & B). rewrite E. cbn [skip_sp]. rewrite A, B. reflexivity.
Qed.

Lemma read_header_anon k r : opens r -> read_header (kind_text k ++ r) = Some (k, None, r).
Proof.
  intros H. rewrite read_header_kind, take_name_app by (apply kind_all_name || (apply opens_name; exact H)).
  rewrite kind_of_text. rewrite (opens_skip r H). destruct H as (c & r' & -> & [-> | ->]); reflexivity.
Qed.

Lemma read_header_named k n r sp : (sp = "" \/ sp = " ") -> opens r -> valid_name n = true ->
  read_header (kind_text k ++ " " ++ n ++ sp ++ r) = Some (k, Some n, r).
Proof.
  intros Hsp H Hn. rewrite read_header_kind, take_name_app by (apply kind_all_name || exact eq_refl).
  rewrite kind_of_text.
  rewrite valid_name_eq in Hn. destruct n as [|c n]; [discriminate|]. apply andb_prop in Hn. destruct Hn as [N1 N2].
  assert (SP : N.eqb (code c) 32 = false).
  { destruct (N.eqb (code c) 32) eqn:E; [|reflexivity]. apply N.eqb_eq in E. unfold name_start in N1. rewrite E in N1. discriminate. }
  change (skip_sp (" " ++ String c n ++ sp ++ r)) with (skip_sp (String c n ++ sp ++ r)).
  cbn [append skip_sp]. rewrite SP, N1.
  change (String c (n ++ sp ++ r)) with (String c n ++ sp ++ r).
  rewrite take_name_app.
  - f_equal. f_equal. destruct Hsp as [-> | ->]; cbn [append]; [apply opens_skip; exact H|].
    change (skip_sp (String " " r)) with (skip_sp r). apply opens_skip. exact H.
  - cbn. unfold name_char. rewrite N1, N2. reflexivity.
  - destruct Hsp as [-> | ->]; cbn [append]; [apply opens_name; exact H|reflexivity].
Qed.

(** The whole story for a document printed by the planner. *)
Lemma naming_ok kind vars sel frags name :
  starts_with "{" sel = true -> valid_name name = true ->
  let d := doc_text kind None vars sel frags in
  exists t, ws_query name (name_write_position d) d = Some t /\
            write_named_operation name (name_write_position d) d = Some (quoted t) /\
            read_header d = Some (kind, None, vars_text vars ++ sel ++ frags) /\
            read_header t = Some (kind, Some name, vars_text vars ++ sel ++ frags).
Proof.
  intros Hs Hn d.
  assert (G : exists t, ws_query name (name_write_position d) d = Some t /\
            (name_write_position d = 0 -> starts_with "{" d = true) /\
            read_header d = Some (kind, None, vars_text vars ++ sel ++ frags) /\
            read_header t = Some (kind, Some name, vars_text vars ++ sel ++ frags)).
  { destruct (starts_with_brace _ Hs) as [s' Es].
    assert (O : opens (vars_text vars ++ sel ++ frags)).
    { destruct vars as [|v vars]; unfold opens; cbn [vars_text append].
      - subst sel. cbn [append]. eauto.
      - eauto. }
    unfold d, doc_text, op_text.
    destruct ((match kind with KQuery => true | _ => false end) && true && (match vars with [] => true | _ => false end))%bool eqn:E.
    - destruct kind; try discriminate E. destruct vars; [|discriminate E]. cbn [vars_text append].
      subst sel. cbn [append].
      exists ("query " ++ name ++ " " ++ String "{" (s' ++ frags)). split; [reflexivity|]. split; [reflexivity|].
      split; [reflexivity|].
      apply (read_header_named KQuery name (String "{" (s' ++ frags)) " "); auto.
    - cbn [append]. set (r := vars_text vars ++ sel ++ frags) in *.
      replace ((kind_text kind ++ vars_text vars ++ sel) ++ frags) with (kind_text kind ++ r)
        by (unfold r; rewrite !app_assoc_s; reflexivity).
      rewrite position_kind by exact O.
      exists (kind_text kind ++ " " ++ name ++ r).
      assert (L : String.length (kind_text kind) <> 0) by (destruct kind; discriminate).
      split; [|split; [intros Z; contradiction|split]].
      + unfold ws_query.
        destruct (Nat.eqb_spec (String.length (kind_text kind)) 0) as [Z|_]; [contradiction|]. cbn [andb].
        rewrite str_len_app.
        destruct (Nat.ltb_spec (String.length (kind_text kind) + String.length r) (String.length (kind_text kind))); [lia|].
        rewrite take_str_app, drop_str_app. reflexivity.
      + apply read_header_anon. exact O.
      + apply (read_header_named kind name r ""); auto. }
  destruct G as (t & A & B & C & D). exists t. split; [exact A|]. split; [|auto].
  rewrite escape_named by exact B. rewrite A. reflexivity.
Qed.

(** ** Request bodies *)
Definition vm (kv : string * string) : string := qt ++ fst kv ++ qt ++ ":" ++ snd kv.
Lemma put_vars_app a b acc : put_vars b (put_vars a acc) = put_vars (a ++ b)%list acc.
Proof. unfold put_vars. rewrite fold_left_app. reflexivity. Qed.
Lemma put_vars_more l b : put_vars l (false, b) = (false, b ++ fold_right (fun y s => "," ++ vm y ++ s) "" l).
Proof.
  revert b. induction l as [|x l IH]; intros b; cbn [fold_right].
  - rewrite string_app_nil_r. reflexivity.
  - change (put_vars (x :: l) (false, b)) with (put_vars l (false, (b ++ ",") ++ vm x)).
    rewrite IH, !app_assoc_s. reflexivity.
Qed.
Lemma put_vars_eq l b : put_vars l (true, b) =
  match l with
  | [] => (true, b)
  | _ => (false, b ++ "," ++ qt ++ "variables" ++ qt ++ ":{" ++ join "," (map vm l))
  end.
Proof.
  destruct l as [|x l]; [reflexivity|].
  change (put_vars (x :: l) (true, b)) with (put_vars l (false, (b ++ "," ++ qt ++ "variables" ++ qt ++ ":{") ++ vm x)).
  rewrite put_vars_more, join_map_false, !app_assoc_s. reflexivity.
Qed.

Definition opt_member (k : string) (o : option jval) : list (string * jval) :=
  match o with Some v => [(k, v)] | None => [] end.
Definition request (q : string) (vars : list (string * jval)) (name : option string) (ext : option jval) : jval :=
  JObj ((("query", JStr q) :: match vars with [] => [] | _ => [("variables", JObj vars)] end)
        ++ opt_member "operationName" (option_map JStr name) ++ opt_member "extensions" ext)%list.

Lemma body_ok query pos name vars raw ext vals ej body :
  (pos = 0 -> starts_with "{" query = true) ->
  match name with Some n => plain n = true | None => True end ->
  Forall2 (fun kv jv => fst kv = fst jv /\ plain (fst kv) = true /\ text_of (snd kv) (snd jv)) (vars ++ raw)%list vals ->
  match ext, ej with Some s, Some j => text_of s j | None, None => True | _, _ => False end ->
  build_request_body query pos name vars raw ext = Some body ->
  decode body = Some (request (match name with
                               | Some n => match ws_query n pos query with Some t => t | None => "" end
                               | None => query end) vals name ej).
Proof.
  intros Hp Hn Hv He B. unfold build_request_body in B.
  set (q := match name with Some n => match ws_query n pos query with Some t => t | None => "" end | None => query end).
  assert (Q : (match name with
         | Some n => match write_named_operation n pos query with Some t => Some (("{" ++ qt ++ "query" ++ qt ++ ":") ++ t) | None => None end
         | None => Some (("{" ++ qt ++ "query" ++ qt ++ ":") ++ quoted query)
         end) = Some ("{" ++ (qt ++ "query" ++ qt ++ ":") ++ quoted q) \/ (match name with
         | Some n => match write_named_operation n pos query with Some t => Some (("{" ++ qt ++ "query" ++ qt ++ ":") ++ t) | None => None end
         | None => Some (("{" ++ qt ++ "query" ++ qt ++ ":") ++ quoted query)
         end) = None).
  { unfold q. destruct name as [n|]; [|left; reflexivity]. rewrite escape_named by exact Hp.
    destruct (ws_query n pos query); [left; reflexivity|right; reflexivity]. }
  destruct Q as [Q|Q]; rewrite Q in B; [|discriminate B]. clear Q.
  rewrite put_vars_app, put_vars_eq in B.
  set (m := fun k s => qt ++ k ++ qt ++ ":" ++ s).
  assert (Mt : forall k s j, plain k = true -> text_of s j -> member_text (m k s) (k, j)).
  { intros k s j Hk Hs. exists s. cbn [fst snd]. split; [|exact Hs].
    rewrite plain_quoted by exact Hk. unfold m, qt, q1. rewrite !app_assoc_s. reflexivity. }
  set (vs := (vars ++ raw)%list) in *.
  assert (VT : text_of ("{" ++ join "," (map vm vs) ++ "}") (JObj vals)).
  { apply object_text. clear B. induction Hv as [|[k s] [k' j] l l' (H1 & H2 & H3) H4 IH]; cbn [map]; constructor.
    - cbn [fst snd] in *. subst k'. apply Mt; assumption.
    - apply IH. }
  apply text_decodes.
  set (ms := (m "query" (quoted q)
              :: (match vs with [] => [] | _ => [m "variables" ("{" ++ join "," (map vm vs) ++ "}")%string] end)
              ++ (match name with Some n => [m "operationName" (quoted n)] | None => [] end)
              ++ (match ext with Some e => [m "extensions" e] | None => [] end))%list).
  assert (E : body = "{" ++ join "," ms ++ "}").
  { unfold ms, m. destruct vs as [|v vs'] eqn:EV; destruct name as [n|]; destruct ext as [e|];
      cbn [List.app join]; apply (f_equal (fun o => match o with Some b => b | None => "" end)) in B;
      cbv beta iota zeta in B; rewrite <- B; rewrite ?(plain_quoted _ Hn); unfold q1, qt;
      rewrite ?app_assoc_s; reflexivity. }
  rewrite E. apply object_text. unfold ms, request. cbn [List.app]. constructor.
  { apply Mt; [reflexivity|apply quoted_text]. }
  apply Forall2_app; [|apply Forall2_app].
  - destruct Hv; [constructor|]. constructor; [|constructor]. apply Mt; [reflexivity|exact VT].
  - destruct name as [n|]; [|constructor]. constructor; [|constructor]. apply Mt; [reflexivity|apply quoted_text].
  - destruct ext as [s|], ej as [j|]; try contradiction; [|constructor]. constructor; [|constructor].
    apply Mt; [reflexivity|exact He].
Qed.

Lemma body_total query pos name vars raw ext :
  pos <= String.length query ->
  exists body, build_request_body query pos name vars raw ext = Some body.
Proof.
  intros H. unfold build_request_body.
  assert (Q : exists b, (match name with
         | Some n => match write_named_operation n pos query with Some t => Some (("{" ++ qt ++ "query" ++ qt ++ ":") ++ t) | None => None end
         | None => Some (("{" ++ qt ++ "query" ++ qt ++ ":") ++ quoted query)
         end) = Some b).
  { destruct name as [n|]; [|eauto]. unfold write_named_operation.
    destruct (_ && _)%bool; [eauto|]. destruct (Nat.ltb_spec (String.length query) pos); [lia|]. eauto. }
  destruct Q as [b Q]. rewrite Q. destruct (put_vars raw (put_vars vars (true, b))) as [f b']. eauto.
Qed.
