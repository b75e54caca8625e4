(** Splitting an operation into the part for the subgraphs and the part the router answers itself.
    Models executor/introspection/partition.rs and the [variable_usages] functions of
    query_planner/ast/{value,selection_set,selection_item}.rs. *)
From Coq Require Import String List Bool.
From Verif Require Import Ast.
Import ListNotations.
Local Open Scope string_scope.

(** ast/value.rs:70-77; a [BTreeSet] is a list, of which only membership is asked. *)
Fixpoint value_usages (v : gvalue) : list string :=
  match v with
  | GVar n => [n]
  | GList l => flat_map value_usages l
  | GObj o => flat_map (fun e => value_usages (snd e)) o
  | _ => []
  end.
(** ast/selection_set.rs:80-85,266-285,327-341, ast/selection_item.rs:99-107 *)
Definition condition_usages (include_if skip_if : option string) : list string :=
  ((match include_if with Some n => [n] | None => [] end) ++ (match skip_if with Some n => [n] | None => [] end))%list.
Fixpoint usages (x : sel) : list string :=
  match x with
  | SField _ _ args inc skip _ sub =>
      (match args with Some a => flat_map (fun e => value_usages (snd e)) a | None => [] end
       ++ condition_usages inc skip ++ flat_map usages sub)%list
  | SFrag _ inc skip sub => (condition_usages inc skip ++ flat_map usages sub)%list
  | SSpread _ => []
  end.

(** partition.rs:62-171; [level] is passed around and never looked at. *)
Fixpoint partition_item (x : sel) : list sel * list sel :=
  let all := (fix all (l : list sel) : list sel * list sel :=
                match l with
                | [] => ([], [])
                | y :: l' => let '(d, i) := partition_item y in let '(ds, is) := all l' in ((d ++ ds)%list, (i ++ is)%list)
                end) in
  match x with
  | SField name alias args inc skip omit sub =>
      if (String.prefix "__" name && negb (String.eqb name "__typename"))%bool then ([], [x])
      else
        let '(down, intro) := all sub in
        let is_leaf := match sub with [] => true | _ => false end in
        let has_downstream := match down with [] => false | _ => true end in
        let has_introspection := match intro with [] => false | _ => true end in
        (if (is_leaf || has_downstream)%bool then [SField name alias args inc skip omit down] else [],
         if has_introspection then [SField name alias args inc skip omit intro] else [])
  | SFrag t inc skip sub =>
      let '(down, intro) := all sub in
      (match down with [] => [] | _ => [SFrag t inc skip down] end, match intro with [] => [] | _ => [SFrag t inc skip intro] end)
  | SSpread n => ([SSpread n], [])
  end.
Definition partition_selection_set (l : list sel) : list sel * list sel :=
  (List.concat (map (fun x => fst (partition_item x)) l), List.concat (map (fun x => snd (partition_item x)) l)).
(** partition.rs:17-52 *)
Definition partition_operation (op : operation) : operation * option operation :=
  let '(down, intro) := partition_selection_set (op_sels op) in
  (mkop (op_name op) (op_kind op) down (op_vars op),
   match intro with
   | [] => None
   | _ =>
       let used := flat_map usages intro in
       Some (mkop (op_name op) (op_kind op) intro
               (option_map (filter (fun d => existsb (String.eqb (vd_name d)) used)) (op_vars op)))
   end).
