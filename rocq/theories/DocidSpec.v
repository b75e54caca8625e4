(* What the choice of a document should be, written without the functions of DocidModel. *)
From Coq Require Import String Ascii List Bool NArith DecimalString.
From Verif Require Import DocidModel.
Import ListNotations.
Local Open Scope string_scope.
Local Open Scope list_scope.

Fixpoint lacks (c : ascii) (s : string) : Prop :=
  match s with
  | "" => True
  | String d r => d <> c /\ lacks c r
  end.

(* the first pair of a query string that carries the name *)
Inductive first_value (name : string) : list string -> option string -> Prop :=
| fv_none : first_value name [] None
| fv_bare : forall ps, first_value name (name :: ps) None
| fv_empty : forall ps, first_value name ((name ++ "=")%string :: ps) None
| fv_value : forall v ps, v <> "" -> first_value name ((name ++ "=" ++ v)%string :: ps) (Some v)
| fv_other : forall p ps r, p <> name -> (forall v, p <> (name ++ "=" ++ v)%string) ->
    first_value name ps r -> first_value name (p :: ps) r.

(* the writings of a byte in a form-encoded value *)
Definition hexval (c : ascii) (n : N) : Prop :=
  exists i, nth_error ["0";"1";"2";"3";"4";"5";"6";"7";"8";"9";"a";"b";"c";"d";"e";"f"]%char i = Some c /\ n = N.of_nat i
         \/ nth_error ["0";"1";"2";"3";"4";"5";"6";"7";"8";"9";"A";"B";"C";"D";"E";"F"]%char i = Some c /\ n = N.of_nat i.

Inductive written : string -> string -> Prop :=
| w_nil : written "" ""
| w_self : forall c v s, c <> "%"%char -> c <> "+"%char -> written v s -> written (String c v) (String c s)
| w_space : forall v s, written v s -> written (String " "%char v) (String "+"%char s)
| w_hex : forall a b x y v s, hexval a x -> hexval b y -> written v s ->
    written (String (ascii_of_N (16 * x + y)) v) (String "%"%char (String a (String b s))).

(* a template met by a path *)
Inductive fits : list tseg -> list string -> list string -> Prop :=
| f_nil : fits [] [] []
| f_lit : forall l ts ps ids, fits ts ps ids -> fits (TLit l :: ts) (l :: ps) ids
| f_any : forall p ts ps ids, p <> "" -> fits ts ps ids -> fits (TAny :: ts) (p :: ps) ids
| f_id : forall p ts ps ids, p <> "" -> fits ts ps ids -> fits (TId :: ts) (p :: ps) (p :: ids).

Fixpoint slashed (ps : list string) : string :=
  match ps with [] => "" | p :: r => ("/" ++ p ++ slashed r)%string end.

(* members of an object, one below the other *)
Inductive reaches : pvalue -> list string -> pvalue -> Prop :=
| r_here : forall v, reaches v [] v
| r_step : forall before k v after segs w,
    (forall x, ~ In (k, x) before) -> reaches v segs w ->
    reaches (PObj (before ++ (k, v) :: after)) (k :: segs) w.

Inductive names : pvalue -> string -> Prop :=
| n_str : forall s, names (PStr s) s
| n_num : forall n, names (PNum n) (NilZero.string_of_uint (N.to_uint n)).

(* bodies that differ in the text of the query only *)
Definition same_but_query (l1 l2 : list (string * pvalue)) : Prop :=
  Forall2 (fun e1 e2 => fst e1 = fst e2 /\
    (fst e1 = "query" -> (exists s, snd e1 = PStr s) /\ (exists s, snd e2 = PStr s)) /\
    (fst e1 <> "query" -> snd e1 = snd e2)) l1 l2.

(* sources that differ in the query *)
Inductive apart : source -> source -> Prop :=
| ap_override : forall q1 q2 o v e, apart (Override (mkparams q1 o v e)) (Override (mkparams q2 o v e))
| ap_get : forall q1 q2 o d v e, apart (Get (Some (mkget q1 o d v e))) (Get (Some (mkget q2 o d v e)))
| ap_post : forall ct l1 l2, same_but_query l1 l2 -> apart (Post ct (Some l1)) (Post ct (Some l2)).
