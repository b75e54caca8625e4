(** What a combination of paths is, and what it costs, said without trees: a plan is a set of places,
    each place being the steps that lead to it, and its cost is the sum over its places. *)
From Coq Require Import String List NArith.
From Verif Require Import Ast QplanModel BestModel.
Import ListNotations.
Local Open Scope list_scope.

(** A step goes into a child or turns aside to something required first *)
Inductive way := Into | Needs.
Definition step : Type := way * label.

(** The places of a tree *)
Inductive reaches : tree -> list step -> Prop :=
| rs_root t : reaches t []
| rs_into l rs cs l' rs' cs' p :
    In (Tree l' rs' cs') cs -> reaches (Tree l' rs' cs') p -> reaches (Tree l rs cs) ((Into, l') :: p)
| rs_needs l rs cs l' rs' cs' p :
    In (Tree l' rs' cs') rs -> reaches (Tree l' rs' cs') p -> reaches (Tree l rs cs) ((Needs, l') :: p).

(** The places of a path: those along it, and those of what its segments require.  Only the first
    segment carries the position of the mutation field. *)
Inductive on_path (g : graph) : option nat -> list segment -> list step -> Prop :=
| op_root pos segs : on_path g pos segs []
| op_along pos s segs e p :
    nth_error g (s_edge s) = Some e ->
    on_path g None segs p ->
    on_path g pos (s :: segs)
      ((Into, mklabel (e_tail e) (Some (s_edge s)) (s_attrs s) pos (s_condition s)) :: p)
| op_aside pos s segs e l rs cs p :
    nth_error g (s_edge s) = Some e ->
    s_requirement s = Some (Tree l rs cs) ->
    reaches (Tree l rs cs) p ->
    on_path g pos (s :: segs)
      ((Into, mklabel (e_tail e) (Some (s_edge s)) (s_attrs s) pos (s_condition s)) :: (Needs, l) :: p).

(** The price of a place: one, and a thousand more when reached by entering a subgraph or when it is
    the start of something required *)
Definition entering (g : graph) (l : label) : N :=
  match l_edge l with
  | Some e => match nth_error g e with
              | Some d => if e_entry d then 1000%N else 0%N
              | None => 0%N
              end
  | None => 0%N
  end.
Fixpoint price (g : graph) (p : list step) : N :=
  match p with
  | [] => 1%N
  | [(Into, l)] => (1 + entering g l)%N
  | [(Needs, _)] => 1001%N
  | _ :: p' => price g p'
  end.
Definition total (l : list N) : N := fold_right N.add 0%N l.

(** A set of choices costs the sum of the prices of its places, a shared place being paid once *)
Definition costs (g : graph) (cs : list candidate) (n : N) : Prop :=
  exists ps, NoDup ps
    /\ (forall p, In p ps <-> exists c, In c cs /\ on_path g (snd c) (p_segments (fst c)) p)
    /\ n = total (map (price g) ps).

(** The leaves of the operation with their alternatives, and a choice of one for each *)
Definition leaves (is_mutation : bool) (groups : list (list (list path))) : list (list candidate) :=
  concat (map (fun ix : nat * list (list path) =>
                 map (map (fun p => (p, if is_mutation then Some (fst ix) else None))) (snd ix))
              (combine (seq 0 (length groups)) groups)).
Definition picks (alternatives : list (list candidate)) (cs : list candidate) : Prop :=
  Forall2 (fun alts c => In c alts) alternatives cs.

(** No two siblings carry the same label *)
Definition labels (l : list tree) : list label := map (fun t => let 'Tree x _ _ := t in x) l.
Inductive tidy : tree -> Prop :=
| tidy_tree l rs cs :
    NoDup (labels rs) -> NoDup (labels cs) -> Forall tidy rs -> Forall tidy cs -> tidy (Tree l rs cs).
(** Every edge below the root is an edge of the graph *)
Inductive drawn (g : graph) : tree -> Prop :=
| drawn_tree l rs cs :
    Forall (fun l => forall e, l_edge l = Some e -> nth_error g e <> None) (labels cs) ->
    Forall (drawn g) rs -> Forall (drawn g) cs -> drawn g (Tree l rs cs).

(** What the walker hands over: segments along edges of the graph, requiring trees of that kind *)
Definition sound_segment (g : graph) (s : segment) : Prop :=
  nth_error g (s_edge s) <> None
  /\ forall t, s_requirement s = Some t -> tidy t /\ drawn g t.
Definition sound_path (g : graph) (p : path) : Prop := Forall (sound_segment g) (p_segments p).
Definition sound (g : graph) (groups : list (list (list path))) : Prop :=
  groups <> [] /\ Forall (Forall (fun paths => paths <> [] /\ Forall (sound_path g) paths)) groups.

(** The costs of a choice for each leaf, when each is paid for separately *)
Definition apart (g : graph) (alternatives : list (list candidate)) (ns : list N) : Prop :=
  Forall2 (fun alts n => exists c, In c alts /\ costs g [c] n) alternatives ns.
Definition affordable (g : graph) (alternatives : list (list candidate)) : Prop :=
  exists ns, apart g alternatives ns /\ (total ns < 18446744073709551615)%N.
