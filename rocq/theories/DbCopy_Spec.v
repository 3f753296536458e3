(* What a user expects when a database is handed to the free energy functions.
   Stated in terms of the contents of the file and of what the reading functions of
   the tree return. *)
From Coq Require Import ZArith Reals String Ascii List Bool.
From Verif Require Import DbCopy_Model.
Import ListNotations.
Open Scope R_scope.
Open Scope string_scope.

(* the entry found by following section names *)
Inductive inside : entry -> list string -> entry -> Prop :=
| inside_here : forall e, inside e [] e
| inside_down : forall l k e p f, In (k, e) l -> inside e p f -> inside (Section l) (k :: p) f.

(* names as the parser of input files accepts them: not empty, no dot *)
Definition plain_key (k : string) : Prop := k <> "" /\ forall a b, k <> a ++ "." ++ b.
(* a database has one entry per name *)
Definition well_formed (e : entry) : Prop :=
  forall p l, inside e p (Section l) -> NoDup (map fst l) /\ Forall plain_key (map fst l).

(* kinds of entries the tree can hold *)
Definition readable (e : entry) : Prop := (forall b, e <> Bools b) /\ e <> Other.
Definition readableb (e : entry) : bool := match e with Bools _ | Other => false | _ => true end.

(* at most ten significant digits *)
Definition ten_digits (x : R) : Prop := exists m e : Z, x = IZR m * powerRZ 10 e /\ (Z.abs m < 10 ^ 10)%Z.
(* d is x to ten significant digits: no number of ten digits is closer *)
Definition nearest_ten (x d : R) : Prop := ten_digits d /\ forall d', ten_digits d' -> Rabs (d - x) <= Rabs (d' - x).

(* the text for one element of an array *)
Inductive text_for : entry -> list text -> Prop :=
| for_chars : forall c, text_for (Chars c) (map (fun a => Letters (String a "")) c)
| for_ints : forall i, text_for (Ints i) (map (fun z => Digits (IZR z)) i)
| for_floats : forall x, text_for (Floats x) (map Digits x)
| for_strings : forall s, text_for (Strings s) (map Letters s)
| for_doubles : forall x d, Forall2 nearest_ten x d -> text_for (Doubles x) (map Digits d).

(* a node without children *)
Definition only_text (v : text) (t : tree) : Prop := data t = v /\ children t = [].
(* the node that stands for an entry: a section has one child per readable entry,
   in the order of the file, under the same names; one number or one string is
   the text of the node; an array is a list of nodes without names *)
Definition represents (e : entry) (t : tree) : Prop :=
  match e with
  | Section l => data t = Letters "" /\ map fst (children t) = map fst (filter (fun ke => readableb (snd ke)) l)
  | _ => exists v, text_for e v /\
         ((exists w, v = [w] /\ only_text w t) \/
          (length v <> 1%nat /\ data t = Letters "" /\ Forall2 (fun w kt => fst kt = "" /\ only_text w (snd kt)) v (children t)))
  end.

(* a file in the JSON format with the same content: arrays as lists, but one
   number or string without brackets; no booleans, no more than ten digits and
   nothing near the smallest numbers *)
Definition ordinary (x : R) : Prop := ten_digits x /\ (x = 0 \/ / powerRZ 2 1022 <= Rabs x).
Inductive same_content : entry -> json -> Prop :=
| same_int1 : forall z, same_content (Ints [z]) (JNum (IZR z))
| same_double1 : forall x, ordinary x -> same_content (Doubles [x]) (JNum x)
| same_string1 : forall s, same_content (Strings [s]) (JText (Letters s))
| same_ints : forall i, length i <> 1%nat -> same_content (Ints i) (JArr (map (fun z => JNum (IZR z)) i))
| same_doubles : forall x, length x <> 1%nat -> Forall ordinary x -> same_content (Doubles x) (JArr (map JNum x))
| same_strings : forall s, length s <> 1%nat -> same_content (Strings s) (JArr (map (fun a => JText (Letters a)) s))
| same_section : forall l j, Forall2 (fun ke kj => fst ke = fst kj /\ same_content (snd ke) (snd kj)) l j ->
    same_content (Section l) (JObj j).

(* name.json *)
Definition json_name (n : string) : Prop := exists a, n = a ++ "json".
Definition long_enough (n : string) : Prop := (4 <= String.length n)%nat.
