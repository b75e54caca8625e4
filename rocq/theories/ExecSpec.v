(** What running a plan should do, whatever order the answers arrive in. *)
From Coq Require Import String List NArith Bool Arith Sorted Permutation.
From Verif Require Import StrOrd JsonModel MergeModel MergeSpec Ast TraverseModel TraverseSpec RewriteModel
  RequiresModel EntityModel EntitySpec ExecModel.
Import ListNotations.
Local Open Scope list_scope.

(** ** Traces *)
Definition sent (tr : list event) : list job_kind :=
  flat_map (fun e => match e with Sent k => [k] | Done _ => [] end) tr.
Definition finished (tr : list event) : list job_kind :=
  flat_map (fun e => match e with Done k => [k] | Sent _ => [] end) tr.

(** The errors a request that failed leaves behind. *)
Definition failure (o : outcome) : option (list gerror) :=
  match o with OErr pre e => Some (pre ++ [e]) | OOk _ _ => None end.
Definition succeeded (o : outcome) : bool := match o with OErr _ _ => false | OOk _ _ => true end.

(** ** What a wave of answers changes *)
(** The positions each path denotes, in document order. *)
Definition listed (pt : ptypes) (d : value) (pos : list fseg -> list (list seg)) : Prop :=
  forall p, StronglySorted before (pos p) /\ forall q, In q (pos p) <-> exists x, selects pt p d q x.

(** The answer for the [n]-th position of a path. *)
Definition answer_for (hashes : list (option N)) (index : list (N * nat)) (ents : list value) (n : nat) : option value :=
  match nth_error hashes n with
  | Some (Some h) => pick (nget h index) ents
  | _ => None
  end.
Fixpoint placed (f : nat -> option value) (n : nat) (qs : list (list seg)) : list (list seg * value) :=
  match qs with
  | [] => []
  | q :: qs' => match f n with Some a => [(q, a)] | None => [] end ++ placed f (S n) qs'
  end.
Section C.
  Variable pt : ptypes.
  Variable pos : list fseg -> list (list seg).
  Fixpoint batch_changes (al : list (astate * option (list value))) : option (list (list seg * value)) :=
    match al with
    | [] => Some []
    | (a, None) :: al' => batch_changes al'
    | (a, Some ents) :: al' =>
        match map_opt (apply_rewrites pt (a_out (as_alias a))) ents, batch_changes al' with
        | Some ents', Some us =>
            Some (flat_map (fun ph => placed (answer_for (snd ph) (as_index a) ents') 0 (pos (fst ph))) (as_paths a)
                  ++ us)
        | _, _ => None
        end
    end.
  (** Which value is merged in at which position; [None]: a rewrite fails. *)
  Definition changes (k : job_kind) (o : outcome) : option (list (list seg * value)) :=
    match o with
    | OErr _ _ => Some []
    | OOk _ r =>
        match k with
        | KFetch f None => option_map (fun d => [([], d)]) (apply_rewrites pt (f_out f) (r_data r))
        | KFetch f (Some p) =>
            option_map (fun d => map (fun q => (q, d)) (pos p)) (apply_rewrites pt (f_out f) (r_data r))
        | KFlatten f p j =>
            match take_entities_by_key "_entities" (r_data r) with
            | None => Some []
            | Some ents =>
                option_map (fun ents' => placed (answer_for (j_hashes j) (j_index j) ents') 0 (pos p))
                           (map_opt (apply_rewrites pt (f_out f)) ents)
            end
        | KBatch b _ sts => batch_changes (combine sts (collect_entities sts (r_data r)))
        end
    end.
End C.
Definition job_paths (k : job_kind) : list (list fseg) :=
  match k with
  | KFetch _ None => []
  | KFetch _ (Some p) => [p]
  | KFlatten _ p _ => [p]
  | KBatch _ _ sts => flat_map (fun a => map fst (as_paths a)) sts
  end.

(** A tree that says [a] at position [q] of a tree shaped like [d], and nothing else. *)
Fixpoint lift (q : list seg) (d a : value) : value :=
  match q with
  | [] => a
  | Key k :: q' =>
      VObj [(k, lift q' (match d with
                         | VObj o => match get k o with Some c => c | None => VNull end
                         | _ => VNull
                         end) a)]
  | Idx i :: q' =>
      match d with
      | VArr l => VArr (set_nth i (lift q' (nth i l VNull) a) (map (fun _ => VNull) l))
      | _ => VNull
      end
  end.
Definition patches (pt : ptypes) (pos : list fseg -> list (list seg)) (d : value) (answer : job_kind -> outcome)
  (ks : list job_kind) : list value :=
  flat_map (fun k => match changes pt pos k (answer k) with
                     | Some us => map (fun u => lift (fst u) d (snd u)) us
                     | None => []
                     end) ks.

(** The answers do not contradict each other or what is known, and none of them moves a position
    another one was asked for. *)
Definition compatible (pt : ptypes) (pos : list fseg -> list (list seg)) (d : value) (answer : job_kind -> outcome)
  (ks : list job_kind) : Prop :=
  let R := patches pt pos d answer ks in
  Forall wf R /\ (forall a, In a R -> agree d a) /\ (forall a b, In a R -> In b R -> agree a b) /\
  (forall rs k p, incl rs R -> In k ks -> In p (job_paths k) -> same_positions pt p d (merge_all d rs)).

(** ** Plans that cannot panic *)
(** A rename ends with a key (rewrites.rs:49-96 takes [path[0]]). *)
Definition sound_rewrite (r : rewrite) : bool :=
  match r with
  | KeyRenamer p _ => match rev p with RKey _ :: _ => true | _ => false end
  | ValueSetter _ _ => true
  end.
Fixpoint spreadless (x : sel) : bool :=
  match x with
  | SField _ _ _ _ _ _ sub => forallb spreadless sub
  | SFrag _ _ _ sub => forallb spreadless sub
  | SSpread _ => false
  end.
Definition sound_fetch (f : fetch) : bool :=
  forallb sound_rewrite (f_in f) && forallb sound_rewrite (f_out f)
  && match f_requires f with Some sels => forallb spreadless sels | None => true end.
Definition sound_alias (a : alias) : bool :=
  forallb sound_rewrite (a_in a) && forallb sound_rewrite (a_out a) && forallb spreadless (a_requires a).
Fixpoint sound (n : node) : bool :=
  match n with
  | NFetch f => sound_fetch f
  | NBatch b => forallb sound_alias (b_aliases b)
  | NFlatten _ n' => sound n'
  | NSequence l | NParallel l => forallb sound l
  | NCondition _ i e =>
      match i with Some n' => sound n' | None => true end && match e with Some n' => sound n' | None => true end
  | NOther => true
  end.

(** What the planner puts into a parallel node (query_plan.rs:110-150, plan_nodes.rs:757-800,
    optimize.rs:529-605): fetches, batches, flattened fetches, and conditions on those. *)
Fixpoint leaf (n : node) : bool :=
  match n with
  | NFetch _ | NBatch _ | NFlatten _ (NFetch _) => true
  | NCondition _ i e =>
      match i with Some n' => leaf n' | None => true end && match e with Some n' => leaf n' | None => true end
  | _ => false
  end.
(** The fetch nodes that the variables let run. *)
Section V.
  Variable vars : option (list (string * value)).
  Fixpoint chosen (n : node) : list node :=
    match n with
    | NFetch _ | NBatch _ => [n]
    | NFlatten _ n' => match n' with NFetch _ => [n] | _ => [] end
    | NSequence l | NParallel l => flat_map chosen l
    | NCondition v i e =>
        match vars with
        | None => []
        | Some vs =>
            match get v vs with
            | None => []
            | Some (VBool true) => match i with Some n' => chosen n' | None => [] end
            | Some _ => match e with Some n' => chosen n' | None => [] end
            end
        end
    | NOther => []
    end.
End V.
(** The request comes from this fetch node. *)
Definition request_of (n : node) (k : job_kind) : Prop :=
  match n, k with
  | NFetch f, KFetch f' None => f' = f
  | NFlatten p (NFetch f), KFetch f' (Some p') => f' = f /\ p' = p /\ f_requires f = None
  | NFlatten p (NFetch f), KFlatten f' p' _ => f' = f /\ p' = p /\ f_requires f <> None
  | NBatch b, KBatch b' _ _ => b' = b
  | _, _ => False
  end.
(** Parallel nodes hold leaves only. *)
Fixpoint shaped (n : node) : bool :=
  match n with
  | NFetch _ | NBatch _ | NOther => true
  | NFlatten _ n' => match n' with NFetch _ => true | _ => false end
  | NSequence l => forallb shaped l
  | NParallel l => forallb leaf l
  | NCondition _ i e =>
      match i with Some n' => shaped n' | None => true end && match e with Some n' => shaped n' | None => true end
  end.
(** The request of fetch node [m] is among those sent, unless there was nothing to ask for. *)
Definition asked (ryu : N -> string) (pt : ptypes) (xxh : list N -> N) (m : node) (d : value) (tr : list event) : Prop :=
  match prepare_leaf ryu pt xxh m d with
  | PJob k => In k (sent tr) /\ request_of m k
  | PNone => True
  | PPanic => False
  end.

(** ** What becomes of errors *)
Definition service_of (k : job_kind) : string :=
  match k with KFetch f _ => f_service f | KFlatten f _ _ => f_service f | KBatch b _ _ => b_service b end.
(** The error [y] is a report of the subgraph's error [x]: only the path may have moved. *)
Definition copied (service : string) (x y : gerror) : Prop :=
  e_message y = e_message x /\ e_locations y = e_locations x /\ e_ext y = e_ext x /\
  e_service y = Some (match e_service x with Some s => s | None => service end) /\
  e_code y = Some (match e_code x with Some c => c | None => "DOWNSTREAM_SERVICE_ERROR"%string end).
Definition reported (k : job_kind) (o : outcome) (es : list gerror) : Prop :=
  match o with
  | OErr pre e => incl (pre ++ [e]) es
  | OOk pre r => incl pre es /\
      forall x, In x (match r_errors r with Some xs => xs | None => [] end) -> exists y, In y es /\ copied (service_of k) x y
  end.
