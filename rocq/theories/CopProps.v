(** C79: the stages of coprocessors. *)
From Coq Require Import String List Bool NArith Permutation.
From Verif Require Import JsonModel CtxModel CopModel CopSpec CopProofs CopMain.
Import ListNotations.
Local Open Scope string_scope.
Local Open Scope list_scope.

(** The decision of a coprocessor is read as it was written, and nothing else is taken for one *)
Theorem C79_control : forall c, (match c with Break n => valid_status n = true | Continue => True end) -> read_control (write_control c) = Some c.
Proof. exact control_round. Qed.
Theorem C79_control_exact : forall v c, read_control v = Some c -> v = write_control c /\ match c with Break n => valid_status n = true | Continue => True end.
Proof. exact control_exact. Qed.
(** A break changes neither message nor context and answers with the status and body given; a header has the last of its values *)
Theorem C79_break : forall header_name header_value read_patch read_gbody blank s runs a m c m' c' r,
  execute header_name header_value read_patch read_gbody blank s runs a m c = (m', c', Broke r) -> m' = m /\ c' = c /\ runs = Some true /\
    exists st p, a = Answer st (Some p) /\ y_control p = Break (r_status r) /\ r_body r = y_body p /\
      match y_headers p with
      | None => r_headers r = []
      | Some l => forall n, (hop n -> values n (r_headers r) = []) /\ (~ hop n -> values n (r_headers r) = match rev (given_values header_name l n) with [] => [] | v :: _ => [v] end)
      end.
Proof. exact broke. Qed.
(** A stage goes on unchanged if its condition does not hold, and otherwise only with an answer of success in the right version, of which all that it asks is done and nothing else *)
Theorem C79_continue : forall header_name header_value read_patch read_gbody blank s runs a m c m' c' d,
  execute header_name header_value read_patch read_gbody blank s runs a m c = (m', c', Continued d) ->
    (runs = Some false /\ m' = m /\ c' = c /\ d = mkperformed false false false) \/
    (runs = Some true /\ exists st p, a = Answer st (Some p) /\ (200 <= st < 300)%N /\ y_version p = 1%N /\ y_control p = Continue /\
      match y_context p with None => c' = c | Some t => exists l, read_patch t = Some l /\ apply_patch l c = (c', None) end /\
      (match y_headers p with
       | None => m_headers m' = m_headers m
       | Some l => sound header_name header_value l /\ forall n, (hop n -> values n (m_headers m') = values n (m_headers m)) /\ (~ hop n -> values n (m_headers m') = given_values header_name l n)
       end /\
       match y_body p with None => m_body m' = m_body m /\ m_params m' = m_params m | Some b => body_put read_gbody blank s b m m' end) /\
      (d_body d = true <-> y_body p <> None) /\ (d_headers d = true <-> y_headers p <> None) /\ (d_context d = true <-> y_context p <> None)).
Proof. exact continued. Qed.
(** A stage that fails has changed neither body nor parameters *)
Theorem C79_failed : forall header_name header_value read_patch read_gbody blank s runs a m c m' c' f,
  execute header_name header_value read_patch read_gbody blank s runs a m c = (m', c', Failed f) -> m_body m' = m_body m /\ m_params m' = m_params m.
Proof. exact failed. Qed.
(** The parameters of the GraphQL request change at one stage only *)
Theorem C79_params : forall header_name header_value read_patch read_gbody blank s runs a m c m' c' o, s <> GraphqlRequest ->
  execute header_name header_value read_patch read_gbody blank s runs a m c = (m', c', o) -> m_params m' = m_params m.
Proof. exact params_kept. Qed.
(** Headers are taken if and only if all of them can be set *)
Theorem C79_headers : forall header_name header_value read_patch read_gbody blank s st p m c,
  (200 <= st < 300)%N -> y_version p = 1%N -> y_control p = Continue -> y_context p = None -> y_body p = None ->
    ((exists m' c' d, execute header_name header_value read_patch read_gbody blank s (Some true) (Answer st (Some p)) m c = (m', c', Continued d)) <->
     forall l, y_headers p = Some l -> sound header_name header_value l).
Proof. exact headers_accepted. Qed.
(** Headers that a coprocessor returns as it got them, in any order, keep their values that are text *)
Theorem C79_echo : forall header_name header_value text h l,
  (forall n v, In (n, v) h -> header_name n = Some n /\ (text v = true -> header_value v = true)) -> Permutation (written_headers text h) l ->
    exists h', replace_into header_name header_value l h = (h', None) /\ forall n, values n h' = if hop_by_hop n then values n h else filter text (values n h).
Proof. exact echo. Qed.
(** but lose the others *)
Theorem C79_echo_refuted : ~ forall header_name header_value text h l h',
  (forall n v, In (n, v) h -> header_name n = Some n /\ header_value v = true) -> Permutation (written_headers text h) l ->
    replace_into header_name header_value l h = (h', None) -> forall n, values n h' = values n h.
Proof.
  intros H. specialize (H (fun n => Some n) (fun _ => true) (fun v => String.eqb v "t") [("a", "t"); ("b", "u")] [("a", ["t"])] [("a", "t")] (fun _ _ _ => conj eq_refl eq_refl) (Permutation_refl _) eq_refl "b"). discriminate.
Qed.
(** A break with two cookies sets one *)
Theorem C79_break_values_refuted : ~ forall header_name header_value read_patch read_gbody blank s runs st p m c m' c' r l,
  execute header_name header_value read_patch read_gbody blank s runs (Answer st (Some p)) m c = (m', c', Broke r) -> y_headers p = Some l ->
    forall n, ~ hop n -> values n (r_headers r) = given_values header_name l n.
Proof.
  intros H. specialize (H (fun n => Some n) (fun _ => true) (fun _ => None) (fun _ => None) (fun _ => false) RouterRequest (Some true) 200%N
    (mkpayload 1 (Break 401) (Some [("set-cookie", ["a=1"; "b=2"])]) None None) (mkmessage [] None (mkparams None None [] None)) (mkcontext None None None None None None None None None []) _ _ _ _ eq_refl eq_refl "set-cookie").
  discriminate H. unfold hop. cbn. intuition discriminate.
Qed.
(** A stage that fails may have dropped the headers of the message *)
Theorem C79_failed_headers_refuted : ~ forall header_name header_value read_patch read_gbody blank s runs a m c m' c' f,
  execute header_name header_value read_patch read_gbody blank s runs a m c = (m', c', Failed f) -> m_headers m' = m_headers m.
Proof.
  intros H. specialize (H (fun n => Some n) (fun _ => true) (fun _ => None) (fun _ => None) (fun _ => false) GraphqlAnalysis (Some true) (Answer 200 (Some (mkpayload 1 Continue (Some []) (Some "{}") None)))
    (mkmessage [("authorization", "x")] None (mkparams None None [] None)) (mkcontext None None None None None None None None None []) _ _ _ eq_refl). discriminate.
Qed.

Example C79_continue_example :
  execute (fun n => Some n) (fun _ => true) (fun t => if String.eqb t "p" then Some [("k", VBool true)] else None) (fun _ => None) (fun _ => false) RouterResponse (Some true)
    (Answer 200 (Some (mkpayload 1 Continue (Some [("x", ["1"; "2"]); ("host", ["evil"])]) (Some "new") (Some "p"))))
    (mkmessage [("host", "h"); ("y", "0"); ("x", "0")] (Some "old") (mkparams None None [] None)) (mkcontext None None None None None None None None None []) =
  (mkmessage [("host", "h"); ("x", "1"); ("x", "2")] (Some "new") (mkparams None None [] None), mkcontext None None None None None None None None None [("k", VBool true)], Continued (mkperformed true true true)).
Proof. reflexivity. Qed.
Example C79_statuses : map (fun n => read_control (VObj [("break", VU64 n)])) [99%N; 100%N; 999%N; 1000%N] = [None; Some (Break 100); Some (Break 999); None].
Proof. reflexivity. Qed.
Example C79_failures : map (fun a => snd (execute (fun n => if String.eqb n "bad" then None else Some n) (fun v => negb (String.eqb v "bad")) (fun _ => None) (fun _ => Some (mkgbody (Some " ") None None None)) (fun _ => true) GraphqlRequest (Some true) a
    (mkmessage [] None (mkparams None None [] None)) (mkcontext None None None None None None None None None [])))
  [NoAnswer; Answer 199 None; Answer 300 None; Answer 200 None; Answer 299 (Some (mkpayload 2 Continue None None None)); Answer 200 (Some (mkpayload 1 Continue (Some [("bad", [])]) None None));
   Answer 200 (Some (mkpayload 1 (Break 200) (Some [("a", ["bad"])]) None None)); Answer 200 (Some (mkpayload 1 Continue None None (Some "x"))); Answer 200 (Some (mkpayload 1 Continue None (Some "x") None))] =
  [Failed SendFailed; Failed (UnexpectedStatus 199); Failed (UnexpectedStatus 300); Failed Undecodable; Failed (UnsupportedVersion 2); Failed InvalidHeaderName; Failed InvalidHeaderValue; Failed InvalidContext; Failed InvalidStageBody].
Proof. reflexivity. Qed.

Print Assumptions C79_control.
Print Assumptions C79_control_exact.
Print Assumptions C79_break.
Print Assumptions C79_continue.
Print Assumptions C79_failed.
Print Assumptions C79_params.
Print Assumptions C79_headers.
Print Assumptions C79_echo.
Print Assumptions C79_echo_refuted.
Print Assumptions C79_break_values_refuted.
Print Assumptions C79_failed_headers_refuted.
