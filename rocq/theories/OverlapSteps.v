(** The functions of the rule, one step at a time. *)
From Coq Require Import String List NArith ZArith Bool.
From Verif Require Import Ast NormModel OverlapModel.
Import ListNotations.
Local Open Scope string_scope.
Local Open Scope list_scope.

Section Until.
  Variable k : string -> state -> outcome.
  Fixpoint until (l : list string) (st : state) : outcome :=
    match l with
    | [] => Some ([], st)
    | b :: l' =>
        if smem b (visited st) then Some ([], st)
        else andthen (k b) (until l') (mkstate (b :: visited st) (compared st))
    end.
End Until.

Section Steps.
  Variable sch : list tdef.
  Variable doc : list definition.
  Definition each_pair (n : nat) (m : bool) (l : list (string * entry * entry)) : state -> outcome :=
    each (fun p => let '(k, e1, e2) := p in find_conflict sch doc n k e1 e2 m) l.

  Lemma find_step : forall n name e1 e2 m st, find_conflict sch doc (S n) name e1 e2 m st =
    let f1 := e_field e1 in
    let f2 := e_field e2 in
    let m' := exclusive m (e_parent e1) (e_parent e2) in
    if negb m' && negb (String.eqb (f_name f1) (f_name f2)) then Some ([Conflict name (Differ (f_name f1) (f_name f2))], st)
    else if negb m' && negb (same_arguments (f_args f1) (f_args f2)) then Some ([Conflict name Arguments], st)
    else
      match (match e_def e1, e_def e2 with Some t1, Some t2 => if type_conflict sch t1 t2 then Some (t1, t2) else None | _, _ => None end) with
      | Some (t1, t2) => Some ([Conflict name (Types t1 t2)], st)
      | None =>
          match f_sub f1, f_sub f2 with
          | [], _ => Some ([], st)
          | _, [] => Some ([], st)
          | _, _ =>
              match between_sets sch doc n m' (type_of_def sch (e_def e1)) (f_sub f1) (type_of_def sch (e_def e2)) (f_sub f2) st with
              | None => None
              | Some ([], st') => Some ([], st')
              | Some (l, st') => Some ([Conflict name (Nested l)], st')
              end
          end
      end.
  Proof. reflexivity. Qed.
  Lemma sets_step : forall n m p1 s1 p2 s2 st, between_sets sch doc (S n) m p1 s1 p2 s2 st =
    let '(m1, n1) := fields_and_fragments sch p1 s1 in
    let '(m2, n2) := fields_and_fragments sch p2 s2 in
    andthen (each_pair n m (pairs m1 m2))
      (andthen (each (fun b => fields_fragment sch doc n m1 b m) n2)
        (andthen (each (fun a => fields_fragment sch doc n m2 a m) n1)
          (each (fun a => each (fun b => fragment_fragment sch doc n a b m) n2) n1))) st.
  Proof. reflexivity. Qed.
  Lemma fields_step : forall n m1 a m st, fields_fragment sch doc (S n) m1 a m st =
    match frag_get doc a with
    | None => Some ([], st)
    | Some (tc, set) =>
        let '(m2, n2) := fields_and_fragments sch (type_by_name sch tc) set in
        if smem a n2 then Some ([], st)
        else andthen (each_pair n m (pairs m1 m2)) (until (fun b => fields_fragment sch doc n m1 b m) n2) st
    end.
  Proof. reflexivity. Qed.
  Lemma frags_step : forall n a b m st, fragment_fragment sch doc (S n) a b m st =
    if String.eqb a b then Some ([], st)
    else if pair_contains a b m (compared st) then Some ([], st)
    else
      let st := mkstate (visited st) (pair_insert a b m (compared st)) in
      match frag_get doc a, frag_get doc b with
      | Some (tc1, s1), Some (tc2, s2) =>
          let '(m1, n1) := fields_and_fragments sch (type_by_name sch tc1) s1 in
          let '(m2, n2) := fields_and_fragments sch (type_by_name sch tc2) s2 in
          andthen (each_pair n m (pairs m1 m2))
            (andthen (each (fun b' => fragment_fragment sch doc n a b' m) n2)
              (each (fun a' => fragment_fragment sch doc n a' b m) n1)) st
      | _, _ => Some ([], st)
      end.
  Proof. reflexivity. Qed.
End Steps.
