(** Specification of nulled selections: which selections of a response plan are replaced by null
    for a list of marked paths, and what is found at a path of a response. *)
From Coq Require Import String List Bool.
From Verif Require Import JsonModel Ast ProjModel ProjSpec TrieModel.
Import ListNotations.
Local Open Scope string_scope.
Local Open Scope list_scope.

(** The segments a selection adds to the path of its parent. *)
Definition segments (g : option tcond) (k : string) : path :=
  match g with Some (TExact t) => [SegFrag t; SegField k] | _ => [SegField k] end.
Definition path_dec : forall a b : path, {a = b} + {a <> b}.
Proof. intros. repeat decide equality. Defined.
(** The plan in which exactly the selections at marked paths are null. *)
Fixpoint conceal (marks : list path) (here : path) (p : plan) {struct p} : plan :=
  match p with
  | Plan f k ty n g c v =>
      let p' := here ++ segments g k in
      Plan f k ty n g c
        (if in_dec path_dec p' marks then SNull
         else match v with SData (Some l) => SData (Some (map (conceal marks p') l)) | _ => v end)
  end.

(** No selection has an empty list of nested selections. *)
Definition every_plan (Q : plan -> Prop) : list plan -> Prop :=
  fix each l := match l with [] => True | x :: l' => Q x /\ each l' end.
Fixpoint full (p : plan) : Prop :=
  match p with
  | Plan _ _ _ _ _ _ (SData (Some l)) => l <> [] /\ every_plan full l
  | _ => True
  end.

(** [found t ks u]: following the response keys [ks] from [t], through lists, one finds [u]. *)
Inductive found : out -> list string -> out -> Prop :=
| found_here t : found t [] t
| found_item l x k ks u : In x l -> found x (k :: ks) u -> found (OArr l) (k :: ks) u
| found_member o k t ks u : In (k, t) o -> found t ks u -> found (OObj o) (k :: ks) u.

Definition every_sel (Q : sel -> Prop) : list sel -> Prop :=
  fix each l := match l with [] => True | x :: l' => Q x /\ each l' end.
(** A selection without fragments, at any depth. *)
Fixpoint fields_only (s : sel) : Prop :=
  match s with SField _ _ _ _ _ _ sub => every_sel fields_only sub | _ => False end.
