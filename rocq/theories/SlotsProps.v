(** C29: long-lived client limit. *)
From Coq Require Import String List Bool NArith.
From Verif Require Import StrUtil HeadersModel SlotsModel SlotsSpec SlotsProofs.
Import ListNotations.
Local Open Scope string_scope.

(** However the accesses interleave, the counter is the number of slots held and within the limit. *)
Theorem C29_bounded limit es : (limit < usize)%N ->
  held (run limit init es) (counter (run limit init es)) /\ (counter (run limit init es) <= limit)%N.
Proof. exact (fun H => held_bounded limit H es). Qed.
Print Assumptions C29_bounded.

(** A reservation is refused at a moment when all slots are held. *)
Theorem C29_refused_only_when_full limit es t : (limit < usize)%N ->
  is_refused (run limit init es) t ->
  exists before e after, es = (before ++ e :: after)%list /\ held (run limit init before) limit /\
    ~ is_refused (run limit init before) t /\ is_refused (run limit init (before ++ [e])) t.
Proof. exact (fun H => refusal_moment limit H es t). Qed.
Print Assumptions C29_refused_only_when_full.

(** With a slot free and no interference a reservation succeeds. *)
Theorem C29_admitted_when_free limit es t : (limit < usize)%N ->
  phases (run limit init es) t = Fresh -> ~ held (run limit init es) limit ->
  phases (run limit init (es ++ alone t)) t = Holding.
Proof. exact (fun H => alone_succeeds limit H es t). Qed.
Print Assumptions C29_admitted_when_free.

(** Dropping the guard frees exactly one slot, and that reservation never holds again. *)
Theorem C29_release limit es t n : (limit < usize)%N ->
  phases (run limit init es) t = Holding -> held (run limit init es) n ->
  held (run limit init (es ++ [Drop t])) (n - 1) /\ phases (run limit init (es ++ [Drop t])) t = Released.
Proof. exact (fun H => release_frees limit H es t n). Qed.
Print Assumptions C29_release.
Theorem C29_released_once limit s es t :
  phases s t = Released -> phases (run limit s es) t = Released.
Proof. exact (released_stays limit es s t). Qed.
Print Assumptions C29_released_once.
Theorem C29_no_leak limit es : (limit < usize)%N ->
  (forall t, holds (run limit init es) t = false) -> counter (run limit init es) = 0%N.
Proof. exact (fun H => all_released limit H es). Qed.
Print Assumptions C29_no_leak.

(** Ordinary requests are never refused; nor is anyone without a limit. *)
Theorem C29_ordinary cfg held c :
  c_subscription c = false -> ~ wants_websocket (c_headers c) -> admit cfg held c = Some held.
Proof. exact (fun S W => ordinary_admitted cfg held c S (not_true_is_false _ (fun E => W (proj1 (websocket_iff _) E)))). Qed.
Print Assumptions C29_ordinary.
Theorem C29_disabled cfg held c : max_clients cfg = 0%N -> admit cfg held c = Some held.
Proof. exact (disabled_admits cfg held c). Qed.
Print Assumptions C29_disabled.

(** A client that is either a WebSocket upgrade or a subscription takes at most one slot and
    gets it whenever one is free. *)
Theorem C29_one_slot cfg held c :
  (held < max_clients cfg)%N -> ~ wants_websocket (c_headers c) \/ c_subscription c = false \/
    websocket_enabled cfg = false ->
  exists n, admit cfg held c = Some n /\ (n <= held + 1)%N.
Proof.
  exact (fun L H => single_admitted cfg held c L (match H with
    | or_introl W => or_introl (not_true_is_false _ (fun E => W (proj1 (websocket_iff _) E)))
    | or_intror T => or_intror T end)).
Qed.
Print Assumptions C29_one_slot.
Theorem C29_takes_a_slot cfg held c : max_clients cfg <> 0%N ->
  (websocket_enabled cfg = true /\ wants_websocket (c_headers c) /\ c_subscription c = false) \/
  (c_subscription c = true /\ (websocket_enabled cfg = false \/ ~ wants_websocket (c_headers c))) ->
  admit cfg held c = if N.ltb held (max_clients cfg) then Some (held + 1)%N else None.
Proof. exact (takes_a_slot cfg held c). Qed.
Print Assumptions C29_takes_a_slot.

(** A subscription whose request also carries upgrade headers takes two slots and can be refused
    although nobody else is connected. *)
Theorem C29_counted_twice_refuted :
  exists cfg c, (0 < max_clients cfg)%N /\ admit cfg 0 c = None.
Proof.
  exact (ex_intro _ {| max_clients := 1; websocket_enabled := true |}
    (ex_intro _ {| c_headers := [("upgrade", "websocket"); ("connection", "keep-alive, Upgrade")];
                   c_subscription := true |} (conj eq_refl eq_refl))).
Qed.
Print Assumptions C29_counted_twice_refuted.

(** Two reservations race for the last slot; the loser reads again and is refused. *)
Example ex_race :
  let s := run 1 init [Load 0; Load 1; Exchange 0 false; Exchange 1 false] in
  (phases s 0, phases s 1, counter s) = (Holding, Refused, 1%N).
Proof. vm_compute. reflexivity. Qed.
Example ex_again :
  let s := run 1 init [Load 0; Exchange 0 true; Exchange 0 false; Drop 0; Load 1; Exchange 1 false] in
  (phases s 0, phases s 1, counter s) = (Released, Holding, 1%N).
Proof. vm_compute. reflexivity. Qed.
