(** The response tree of the executor.
    Models [enum Value] of bin/router/src/executor/response/value.rs:17-29. *)
From Coq Require Import String List NArith ZArith Sorted.
From Verif Require Import StrOrd.
Import ListNotations.

(** value.rs:17-29.  [F64] is kept as its 64-bit pattern; borrowed and owned strings
    ([Cow]) are not distinguished. *)
Inductive value : Type :=
| VNull
| VF64 (bits : N)
| VI64 (z : Z)
| VU64 (n : N)
| VBool (b : bool)
| VStr (s : string)
| VRaw (s : string)                      (* RawJson *)
| VArr (l : list value)
| VObj (o : list (string * value)).

Section Ind.
  Variable P : value -> Prop.
  Hypothesis Hnull : P VNull.
  Hypothesis Hf64 : forall b, P (VF64 b).
  Hypothesis Hi64 : forall z, P (VI64 z).
  Hypothesis Hu64 : forall n, P (VU64 n).
  Hypothesis Hbool : forall b, P (VBool b).
  Hypothesis Hstr : forall s, P (VStr s).
  Hypothesis Hraw : forall s, P (VRaw s).
  Hypothesis Harr : forall l, Forall P l -> P (VArr l).
  Hypothesis Hobj : forall o, Forall (fun kv => P (snd kv)) o -> P (VObj o).

  Fixpoint value_rect' (v : value) : P v :=
    match v with
    | VNull => Hnull
    | VF64 b => Hf64 b
    | VI64 z => Hi64 z
    | VU64 n => Hu64 n
    | VBool b => Hbool b
    | VStr s => Hstr s
    | VRaw s => Hraw s
    | VArr l => Harr l ((fix go l : Forall P l :=
                           match l with
                           | [] => Forall_nil _
                           | x :: l' => Forall_cons x (value_rect' x) (go l')
                           end) l)
    | VObj o => Hobj o ((fix go o : Forall (fun kv => P (snd kv)) o :=
                           match o with
                           | [] => Forall_nil _
                           | kv :: o' => Forall_cons kv (value_rect' (snd kv)) (go o')
                           end) o)
    end.
End Ind.
Definition value_ind' := value_rect'.

(** Representation invariant of the tree: every object has strictly sorted keys
    (value.rs:181 [sort_unstable_by_key] when a tree is built; all lookups are
    [binary_search_by_key]). *)
Inductive wf : value -> Prop :=
| wf_null : wf VNull
| wf_f64 b : wf (VF64 b)
| wf_i64 z : wf (VI64 z)
| wf_u64 n : wf (VU64 n)
| wf_bool b : wf (VBool b)
| wf_str s : wf (VStr s)
| wf_raw s : wf (VRaw s)
| wf_arr l : Forall wf l -> wf (VArr l)
| wf_obj o : keys_sorted o -> Forall (fun kv => wf (snd kv)) o -> wf (VObj o).

Definition is_null (v : value) : bool := match v with VNull => true | _ => false end.
