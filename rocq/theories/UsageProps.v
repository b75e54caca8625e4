(** C74: what is reported about executed operations. *)
From Coq Require Import String List NArith ZArith Bool Arith.
From Verif Require Import UsageModel UsageSpec UsageProofs UsageMain.
Import ListNotations.
Local Open Scope string_scope.
Local Open Scope list_scope.

(** The set of seen keys is a window over the last distinct keys, in bounded memory *)
Theorem C74_window : forall c l v, 0 < c -> (fst (fifo_insert (inserted c l) v) = true <-> fresh c (rev l) v) /\ length (order (inserted c l)) <= c.
Proof. exact windowed. Qed.
Print Assumptions C74_window.

(** Every kept report, and no other, is handled in exactly one batch or is in the buffer, in order *)
Theorem C74_kept : forall transform hash c l,
  let a := acts transform hash c (agent_new c) l in kept hash c l (concat (map fst (a_log a)) ++ a_buffer a).
Proof. exact kept_once. Qed.
Print Assumptions C74_kept.
(** ... where the specification names one list *)
Theorem C74_kept_one : forall hash c l k k', kept hash c l k -> kept hash c l k' -> k = k'.
Proof. exact kept_fun. Qed.
Print Assumptions C74_kept_one.
(** The first report of a key is kept, whatever the rate and the size of the window *)
Theorem C74_first : forall hash c l k x e b ev n h, kept hash c l k -> considered hash c l h -> c_once c <> None -> ~ excluded c x e -> ~ In (key hash c x) h ->
  kept hash c (l ++ [Add x e b ev n]) (k ++ [x]).
Proof. exact first_kept. Qed.
Print Assumptions C74_first.

(** The buffer stays within its size; batches are not empty and have at most one report more *)
Theorem C74_sizes : forall transform hash c l, let a := acts transform hash c (agent_new c) l in
  length (a_buffer a) <= c_size c /\ Forall (fun b => 1 <= length (fst b) <= c_size c + 1) (a_log a).
Proof. exact sizes. Qed.
Print Assumptions C74_sizes.
(** After a flush every kept report has been handled *)
Theorem C74_flushed : forall transform hash c l ev n, let a := acts transform hash c (agent_new c) (l ++ [Flush ev n]) in
  a_buffer a = [] /\ kept hash c (l ++ [Flush ev n]) (concat (map fst (a_log a))).
Proof. exact flushed. Qed.
Print Assumptions C74_flushed.

(** A posted report tells exactly of the operations of its batch, if all reports are of one schema *)
Theorem C74_posted_partial : forall transform hash c s l b, Forall (of_schema s) l -> In b (a_log (acts transform hash c (agent_new c) l)) -> right transform s b.
Proof. exact posted_right. Qed.
Print Assumptions C74_posted_partial.
(** No error is reported only if there was nothing to post or the console answered 200 *)
Theorem C74_fine : forall transform a d ev n a', handle transform a d ev n = (a', Fine) -> d <> [] ->
  (exists r, a_log a' = a_log a ++ [(d, Nothing r)]) \/ exists r body, a_log a' = a_log a ++ [(d, Posted r n)] /\ n = Status 200 body.
Proof. exact fine. Qed.
Print Assumptions C74_fine.
(** No batch is lost by a panic if the cache evicts nothing between finding and reading an entry *)
Theorem C74_calm_partial : forall transform hash c l, Forall calm l -> Forall (fun b => snd b <> Crashed) (a_log (acts transform hash c (agent_new c) l)).
Proof. exact calm_run. Qed.
Print Assumptions C74_calm_partial.

(** Finding: an eviction at that moment panics, and the batch is lost *)
Theorem C74_panic_refuted : forall hash n, let c := mkconfig 1 None 1000000 None in
  let l := [Add (ex "s" "q") (Ok false) false [] n; Flush [] n; Add (ex "s" "q") (Ok false) false [] n] in
  a_buffer (acts tr0 hash c (agent_new c) l) = [ex "s" "q"] /\ snd (act tr0 hash c (acts tr0 hash c (agent_new c) l) (Flush [([], ["q"])] n)) = Panic /\
  a_buffer (acts tr0 hash c (agent_new c) (l ++ [Flush [([], ["q"])] n])) = [].
Proof. intros. vm_compute. auto. Qed.
Print Assumptions C74_panic_refuted.
(** Finding: coordinates come from the schema of an earlier report of the same body *)
Theorem C74_schema_refuted : forall hash n, let c := mkconfig 1 None 1000000 None in
  let l := [Add (ex "old" "q") (Ok false) false [] n; Flush [] n; Add (ex "new" "q") (Ok false) false [] n; Flush [] n] in
  In ([ex "new" "q"], Posted (mkreport 1 [("q", mkinfo "q" None ["old"])] [mkentry "q" 0 true 0 0 None None]) n) (a_log (acts tr0 hash c (agent_new c) l)) /\
  tr0 "q" "new" = Ok (Some (mkproc "q" "q" ["new"])).
Proof. intros. vm_compute. auto. Qed.
Print Assumptions C74_schema_refuted.
(** Finding: when the first report of a key cannot be posted, no later report of the key is either *)
Theorem C74_lost_refuted : forall hash n l, Forall (same_body "q") l ->
  a_log (acts tr0 hash lossy (agent_new lossy) (Add (ex "s" "q") (Ok false) false [] n :: l)) = [([ex "s" "q"], Posted (mkreport 1 [("q", mkinfo "q" None ["s"])] [mkentry "q" 0 true 0 0 None None]) n)].
Proof. exact lost. Qed.
Print Assumptions C74_lost_refuted.

Example C74_example_window : map (fun l => recent 2 l) [[1]; [2; 1]; [1; 2; 1]; [3; 1; 2; 1]; [1; 3; 1; 2; 1]]%N = [[1]; [2; 1]; [2; 1]; [3; 2]; [1; 3]]%N.
Proof. vm_compute. reflexivity. Qed.
Definition named (n : string) (k : kind) (body : string) : exec := mkexec "s" (Some "app") (Some "") 5 (u64_max + 7) false 2 body (Some n) (Some k) (Some "doc").
Definition tr1 (body _ : string) : result (option processed) :=
  if String.eqb body "introspection" then Ok None else if String.eqb body "broken" then Err "no" else Ok (Some (mkproc ("min " ++ body) "hash" ["Query.a"])).
Example C74_example_report :
  let c := mkconfig 5 (Some (Names ["secret"])) 1000000 None in
  a_log (acts tr1 (fun _ => 0%N) c (agent_new c)
    [Add (named "A" Query "a") (Ok false) false [] Rejected; Add (named "secret" Query "a") (Ok false) false [] Rejected; Add (named "B" Mutation "introspection") (Ok false) false [] Rejected;
     Add (named "C" Query "broken") (Ok false) false [] Rejected; Add (ex "s" "b") (Ok false) false [] Rejected; Flush [] Rejected])
  = [([named "A" Query "a"; named "B" Mutation "introspection"; named "C" Query "broken"; ex "s" "b"],
      Posted (mkreport 2 [("hash", mkinfo "min a" (Some "A") ["Query.a"])]
        [mkentry "hash" 5 false u64_max 2 (Some "doc") (Some ("app", "")); mkentry "hash" 0 true 0 0 None None]) Rejected)].
Proof. vm_compute. reflexivity. Qed.
Example C74_example_sampling :
  let c := mkconfig 9 (Some Expression) 500000 (Some ([ByName; ByType], 1)) in
  let hash l := if list_eq_dec string_dec l ["anonymous"; "query"] then 1%N else if list_eq_dec string_dec l ["A"; "mutation"] then 2%N else 3%N in
  map x_body (a_buffer (acts tr1 hash c (agent_new c)
    [Add (ex "s" "1") (Ok true) true [] Rejected; Add (ex "s" "2") (Ok false) false [] Rejected; Add (ex "s" "3") (Ok false) false [] Rejected; Add (ex "s" "4") (Ok false) true [] Rejected;
     Add (ex "s" "5") (Err "e") true [] Rejected; Add (named "A" Mutation "6") (Ok false) false [] Rejected; Add (named "A" Subscription "7") (Ok false) false [] Rejected;
     Add (named "A" Subscription "8") (Ok false) false [] Rejected; Add (ex "s" "9") (Ok false) false [] Rejected])) = ["2"; "4"; "6"; "7"; "9"].
Proof. vm_compute. reflexivity. Qed.
Example C74_example_rates : forall z : bool,
  map (fun r => length (a_buffer (acts tr1 (fun _ => 0%N) (mkconfig 9 None r None) (agent_new (mkconfig 9 None r None)) [Add (ex "s" "1") (Ok false) true [] Rejected; Add (ex "s" "1") (Ok false) z [] Rejected]))) [0; 1; 999999; 1000000]%Z
  = [0; 1 + (if z then 1 else 0); 1 + (if z then 1 else 0); 2].
Proof. intros [|]; vm_compute; reflexivity. Qed.
Example C74_example_answers : map send [Status 200 "b"; Status 401 "b"; Status 403 "b"; Status 429 "b"; Status 500 "b"; Unreachable "u"; Rejected]
  = [Fine; Trouble Unauthorized; Trouble Forbidden; Trouble RateLimited; Trouble (Unknown "b"); Trouble (Unknown "u"); Trouble BreakerOpen].
Proof. reflexivity. Qed.
