(* Model of copyDatabase (a SAMRAI database to a property tree, a SAMRAI database
   to a SAMRAI database), of the conversion program and of the places where a run
   opens the thermodynamic file.  Sources: /repo/source/Database2JSON.cc,
   /repo/drivers/convertDatabase2JSON.cc, FreeEnergyStrategyFactory.h,
   PhaseConcentrationsStrategyFactory.h, KimMobilityStrategy.cc, MobilityFactory.h,
   AzizPartitionCoefficientStrategy.cc, CALPHADFreeEnergyStrategyTernary.cc,
   CompositionStrategyMobilities.cc, QuatModel.cc.

   Simplifications.  boost::property_tree and tbox::Database are given their
   documented meaning.  The characters of a number are represented by the decimal
   number they denote ([Digits]).  Overflow of binary64 is not modelled.  None =
   assert, exception or TBOX_ERROR. *)
From Coq Require Import ZArith Reals String Ascii List Bool Lia Lra.
From Flocq Require Import Core.
Import ListNotations.
Open Scope R_scope.
Open Scope string_scope.

(* ------------------------------------------------------------------ *)
(* Databases                                                            *)

(* The kinds of entries of tbox::Database that copyDatabase distinguishes
   (Database2JSON.cc:36-119): a section or an array.  Complex numbers and boxes
   are [Other]. *)
Inductive entry :=
| Section (l : list (string * entry))
| Bools (b : list bool) | Chars (c : list ascii) | Ints (i : list Z)
| Doubles (x : list R) | Floats (x : list R) | Strings (s : list string)
| Other.

(* The double nearest to a decimal number: what the parser of input files and
   get<double> do with the characters of a number. *)
Definition two : radix := radix2.
Definition to_double (x : R) : R := round two (FLT_exp (-1074) 53) ZnearestE x.

(* A file as it is written, numbers exact, and what parseInputFile stores. *)
Fixpoint parse (e : entry) : entry :=
  match e with
  | Section l => Section (map (fun ke => let '(k, e') := ke in (k, parse e')) l)
  | Doubles x => Doubles (map to_double x)
  | _ => e
  end.

(* ------------------------------------------------------------------ *)
(* boost::property_tree                                                 *)

Inductive text := Letters (s : string) | Digits (x : R).
Definition no_text : text := Letters "".
Inductive tree := Node (data : text) (children : list (string * tree)).
Definition empty_tree : tree := Node no_text [].
Definition data (t : tree) : text := let 'Node d _ := t in d.
Definition children (t : tree) : list (string * tree) := let 'Node _ c := t in c.

(* A path "a.b.c" is cut at the dots (ptree default separator). *)
Fixpoint fragments_from (acc s : string) : list string :=
  match s with
  | EmptyString => [acc]
  | String c s' => if Ascii.eqb c "." then acc :: fragments_from "" s' else fragments_from (acc ++ String c EmptyString) s'
  end.
Definition fragments (s : string) : list string := match s with EmptyString => [] | _ => fragments_from "" s end.

(* find: the first child with that key *)
Fixpoint find_child (k : string) (l : list (string * tree)) : option tree :=
  match l with
  | [] => None
  | (k', t) :: r => if String.eqb k k' then Some t else find_child k r
  end.
(* get_child_optional *)
Fixpoint get_child (t : tree) (p : list string) : option tree :=
  match p with
  | [] => Some t
  | k :: p' => match find_child k (children t) with Some t' => get_child t' p' | None => None end
  end.

(* apply f to the first child with that key; a new, empty child is appended if
   there is none (force_path) *)
Fixpoint at_child (k : string) (f : tree -> tree) (l : list (string * tree)) : list (string * tree) :=
  match l with
  | [] => [(k, f empty_tree)]
  | (k', t) :: r => if String.eqb k k' then (k', f t) :: r else (k', t) :: at_child k f r
  end.
(* put: sets the text of the node, keeps its children *)
Fixpoint put_at (p : list string) (v : text) (t : tree) : tree :=
  match p with
  | [] => Node v (children t)
  | k :: p' => Node (data t) (at_child k (put_at p' v) (children t))
  end.
Definition put (k : string) (v : text) (t : tree) : tree := put_at (fragments k) v t.
(* add_child: always appends *)
Fixpoint add_at (p : list string) (u : tree) (t : tree) : tree :=
  match p with
  | [] => u
  | [k] => Node (data t) (children t ++ [(k, u)])%list
  | k :: p' => Node (data t) (at_child k (add_at p' u) (children t))
  end.
Definition add_child (k : string) (u : tree) (t : tree) : tree := add_at (fragments k) u t.

(* get<double>; text that is not a number gives an exception *)
Definition get_double (t : tree) : option R :=
  match data t with Digits x => Some (to_double x) | Letters _ => None end.

(* ------------------------------------------------------------------ *)
(* copyDatabase into a tree, Database2JSON.cc:26-123                     *)

Definition ten : radix := {| radix_val := 10; radix_prop := eq_refl |}.
(* ss << std::setprecision(10) << value, lines 73-76, 80-84: ten significant digits *)
Definition ten_digits_of (x : R) : R := round ten (FLX_exp 10) ZnearestE x.

Definition char_text (c : ascii) : text := Letters (String c EmptyString).
Definition int_text (z : Z) : text := Digits (IZR z).
Definition double_text (x : R) : text := Digits (ten_digits_of x).
(* the tree's own conversion keeps enough digits of a float *)
Definition float_text (x : R) : text := Digits x.

(* node.put("", v); nodes.push_back(make_pair("", node)), lines 48-52 and alike *)
Definition leaf (v : text) : tree := put "" v empty_tree.
Definition nodes (l : list text) : tree := Node no_text (map (fun v => ("", leaf v)) l).

(* size == 1: put(key, value); otherwise a list of nodes, lines 45-55 and alike *)
Definition copy_array {A : Type} (f : A -> text) (k : string) (l : list A) (t : tree) : tree :=
  match l with
  | [v] => put k (f v) t
  | _ => add_child k (nodes (map f l)) t
  end.

Fixpoint copy_entry (k : string) (e : entry) (t : tree) : tree :=
  match e with
  | Section l => add_child k (fold_left (fun u ke => let '(k', e') := ke in copy_entry k' e' u) l empty_tree) t
  | Chars c => copy_array char_text k c t
  | Ints i => copy_array int_text k i t
  | Doubles x => copy_array double_text k x t
  | Floats x => copy_array float_text k x t
  | Strings s => copy_array Letters k s t
  | Bools _ => t        (* no branch for SAMRAI_BOOL *)
  | Other => t
  end.
Definition copy_entries (l : list (string * entry)) (t : tree) : tree :=
  fold_left (fun u ke => let '(k, e) := ke in copy_entry k e u) l t.
Definition copyDatabase (l : list (string * entry)) : tree := copy_entries l empty_tree.

(* ------------------------------------------------------------------ *)
(* copyDatabase into a database, Database2JSON.cc:125-186                 *)

(* tbox::MemoryDatabase::put...: an entry of that name is replaced *)
Fixpoint replace_entry (k : string) (e : entry) (l : list (string * entry)) : list (string * entry) :=
  match l with
  | [] => [(k, e)]
  | (k', e') :: r => if String.eqb k k' then (k, e) :: r else (k', e') :: replace_entry k e r
  end.
Fixpoint db_copy_entry (k : string) (e : entry) (t : list (string * entry)) : list (string * entry) :=
  match e with
  | Section l => replace_entry k (Section (fold_left (fun u ke => let '(k', e') := ke in db_copy_entry k' e' u) l [])) t
  | Other => t
  | _ => replace_entry k e t
  end.
Definition db_copy (l : list (string * entry)) : list (string * entry) :=
  fold_left (fun u ke => let '(k, e) := ke in db_copy_entry k e u) l [].

(* ------------------------------------------------------------------ *)
(* JSON                                                                 *)

Inductive json :=
| JText (t : text)                       (* "..." *)
| JNum (x : R) | JBool (b : bool)
| JArr (l : list json) | JObj (l : list (string * json)).

(* boost read_json *)
Fixpoint read_json (j : json) : tree :=
  match j with
  | JText t => Node t []
  | JNum x => Node (Digits x) []
  | JBool b => Node (Letters (if b then "true" else "false")) []
  | JArr l => Node no_text (map (fun v => ("", read_json v)) l)
  | JObj l => Node no_text (map (fun kv => let '(k, v) := kv in (k, read_json v)) l)
  end.

Definition has_text (t : text) : bool := match t with Letters s => negb (String.eqb s "") | Digits _ => true end.
Fixpoint sequence {A : Type} (l : list (option A)) : option (list A) :=
  match l with
  | [] => Some []
  | Some a :: r => match sequence r with Some r' => Some (a :: r') | None => None end
  | None :: _ => None
  end.
(* boost write_json below the root: text without children, a list if every key is
   empty, an object otherwise; text together with children is refused *)
Fixpoint write_node (t : tree) : option json :=
  match t with
  | Node d [] => Some (JText d)
  | Node d l =>
      if has_text d then None else
      match sequence (map (fun kt => let '(k, t') := kt in write_node t') l) with
      | None => None
      | Some js => Some (if forallb (fun kt => String.eqb (fst kt) "") l then JArr js else JObj (combine (map fst l) js))
      end
  end.
(* the root is always an object and carries no text *)
Definition write_json (t : tree) : option json :=
  if has_text (data t) then None else
  match sequence (map (fun kt => write_node (snd kt)) (children t)) with
  | None => None
  | Some js => Some (JObj (combine (map fst (children t)) js))
  end.
(* convertDatabase2JSON.cc:24-41 *)
Definition convert (l : list (string * entry)) : option json := write_json (copyDatabase l).

(* ------------------------------------------------------------------ *)
(* Which parser reads the thermodynamic file                            *)

Inductive file := DatabaseFile (l : list (string * entry)) | JsonFile (j : json).

(* calphad_filename.compare(calphad_filename.size() - 4, 4, "json") == 0: a
   position beyond the end is an exception (KimMobilityStrategy.cc:56 and alike) *)
Definition named_json (name : string) : option bool :=
  if (String.length name <? 4)%nat then None
  else Some (String.eqb (String.substring (String.length name - 4) 4 name) "json").

(* parseInputFile: stops unless the file has the syntax of input files *)
Definition parse_input (f : file) : option (list (string * entry)) :=
  match f with DatabaseFile l => Some l | JsonFile _ => None end.
(* read_json: an exception unless the file is JSON *)
Definition parse_json (f : file) : option tree :=
  match f with JsonFile j => Some (read_json j) | DatabaseFile _ => None end.

(* FreeEnergyStrategyFactory.h:50-66, PhaseConcentrationsStrategyFactory.h:45-62,
   KimMobilityStrategy.cc:50-63, CALPHADequilibriumPhaseConcentrationsStrategy-
   MultiOrder.cc:31-44: by name.  The second component is calphad_db, which stays
   null for JSON. *)
Definition by_name (name : string) (f : file) : option (tree * option (list (string * entry))) :=
  match named_json name with
  | None => None
  | Some true => option_map (fun t => (t, None)) (parse_json f)
  | Some false => option_map (fun l => (copyDatabase l, Some l)) (parse_input f)
  end.
(* AzizPartitionCoefficientStrategy.cc:40-52, KimMobilityStrategy.cc:100-111 (ternary),
   CompositionStrategyMobilities.cc:36-39: the parser of input files, whatever the name *)
Definition as_input (f : file) : option tree := option_map copyDatabase (parse_input f).

(* What of the input decides which components open the file.  A CALPHAD run,
   QuatModel.cc:340-413, MobilityFactory.h:32-66. *)
Record setup := mk_setup {
  ternary : bool;        (* d_ncompositions > 1 *)
  phase_conc : bool;     (* concentrationModelNeedsPhaseConcentrations *)
  kim : bool;            (* phase mobility not scalar *)
  ctd : bool;            (* diffusion from atomic mobilities *)
  aziz : bool;           (* Aziz partition coefficient *)
  newton : option (list (string * entry))  (* section NewtonSolver *)
}.
Definition obind {A B : Type} (a : option A) (f : A -> option B) : option B := match a with Some x => f x | None => None end.
(* newton_pt: Aziz copies the database without looking whether there is one,
   AzizPartitionCoefficientStrategy.cc:48-54; copyDatabase asserts, Database2JSON.cc:29 *)
Definition newton_tree (n : option (list (string * entry))) : tree := match n with Some l => copyDatabase l | None => empty_tree end.
Definition newton_tree_aziz (n : option (list (string * entry))) : option tree := option_map copyDatabase n.

(* FreeEnergyStrategyFactory.h:46-165: a ternary alloy gets calphad_db,
   CALPHADFreeEnergyStrategyTernary.cc:67-73 copies it again *)
Definition free_energy (c : setup) (name : string) (f : file) : option (tree * tree) :=
  obind (by_name name f) (fun td => let '(t, d) := td in
  if ternary c then option_map (fun l => (copyDatabase l, newton_tree (newton c))) d
  else Some (t, newton_tree (newton c))).
Definition phase_concentrations (c : setup) (name : string) (f : file) : option (tree * tree) :=
  option_map (fun td => (fst td, newton_tree (newton c))) (by_name name f).
Definition kim_mobility (c : setup) (name : string) (f : file) : option (tree * tree) :=
  if ctd c then None else
  if ternary c then option_map (fun t => (t, newton_tree (newton c))) (as_input f)
  else option_map (fun td => (fst td, newton_tree (newton c))) (by_name name f).
Definition aziz_partition (c : setup) (f : file) : option (tree * tree) :=
  obind (as_input f) (fun t => option_map (fun n => (t, n)) (newton_tree_aziz (newton c))).

Definition when (b : bool) (o : option (tree * tree)) : option (list (tree * tree)) :=
  if b then option_map (fun x => [x]) o else Some [].
(* the trees handed to the free energy functions, in the order in which the
   components are made *)
Definition start (c : setup) (name : string) (f : file) : option (list (tree * tree)) :=
  obind (when true (free_energy c name f)) (fun a =>
  obind (when (phase_conc c) (phase_concentrations c name f)) (fun b =>
  obind (if ctd c then option_map (fun _ => []) (parse_input f) else Some []) (fun m =>
  obind (when (aziz c) (aziz_partition c f)) (fun d =>
  obind (when (kim c) (kim_mobility c name f)) (fun k =>
  Some (a ++ b ++ m ++ d ++ k)%list))))).
