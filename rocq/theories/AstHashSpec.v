(** What two operations ask for, independently of any hashing. *)
From Coq Require Import String List NArith ZArith Bool.
From Verif Require Import Ast.
Import ListNotations.
Local Open Scope string_scope.

(** An argument as a subgraph receives it, given the request's variables. *)
Inductive argval := AUndef | AInt (z : Z) | AFloat (b : N) | AStr (s : string) | ABool (b : bool)
  | ANull | AEnum (s : string) | AList (l : list argval) | AObj (o : list (string * argval)).

Fixpoint arg_value (vars : string -> argval) (v : gvalue) : argval :=
  match v with
  | GVar n => vars n
  | GInt z => AInt z
  | GFloat b => AFloat b
  | GStr s => AStr s
  | GBool b => ABool b
  | GNull => ANull
  | GEnum s => AEnum s
  | GList l => AList (map (arg_value vars) l)
  | GObj o => AObj (map (fun kv => (fst kv, arg_value vars (snd kv))) o)
  end.

(** The fields requested of an object whose runtime type satisfies exactly the type
    conditions in [conds], with their arguments, one level deep. *)
Fixpoint requested (conds : list string) (vars : string -> argval) (x : sel) :
  list (string * list (string * argval)) :=
  match x with
  | SField n a args _ _ _ _ =>
      [((match a with Some r => r | None => n end) ++ ":" ++ n,
        match args with
        | Some l => map (fun kv => (fst kv, arg_value vars (snd kv))) l
        | None => []
        end)]
  | SFrag t _ _ sub =>
      if existsb (String.eqb t) conds
      then (fix go (l : list sel) := match l with [] => [] | y :: l' => requested conds vars y ++ go l' end)%list sub
      else []
  | SSpread _ => []
  end.
Definition requested_all conds vars (l : list sel) := flat_map (requested conds vars) l.

(** Operations without inline fragments and fragment spreads. *)
Fixpoint fragment_free (x : sel) : bool :=
  match x with
  | SField _ _ _ _ _ _ sub =>
      (fix go (l : list sel) := match l with [] => true | y :: l' => fragment_free y && go l' end) sub
  | _ => false
  end.

(** The operation with each argument list replaced by one number. *)
Inductive skel :=
| KField (name : string) (alias : option string) (args : option N)
         (include_if skip_if : option string) (omit : bool) (sub : list skel)
| KOther.
Fixpoint skeleton (h : list (string * gvalue) -> N) (x : sel) : skel :=
  match x with
  | SField n a args i s o sub =>
      KField n a (option_map h args) i s o (map (skeleton h) sub)
  | _ => KOther
  end.

(** No argument list hashes to one of the two values used as markers. *)
Fixpoint args_ok (h : list (string * gvalue) -> N) (x : sel) : bool :=
  match x with
  | SField _ _ args _ _ _ sub =>
      match args with Some l => (1 <? h l)%N | None => true end &&
      (fix go (l : list sel) := match l with [] => true | y :: l' => args_ok h y && go l' end) sub
  | _ => true
  end.
