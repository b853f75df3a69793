(* Readers of the two file formats, written without looking at the writer: numbers,
   tags and words of an XML file, lines and comma separated fields. *)
From Coq Require Import Ascii String.
From Verif Require Import Base.
Open Scope nat_scope.
Open Scope list_scope.

Definition chr (s : string) : list ascii := list_ascii_of_string s.

(* ---- numbers ---- *)
Definition digit_value (c : ascii) : option Z :=
  let n := N_of_ascii c in
  if (N.leb 48 n && N.leb n 57)%bool then Some (Z.of_N n - 48)%Z else None.
Fixpoint read_digits (v : Z) (t : list ascii) : option Z :=
  match t with
  | [] => Some v
  | c :: r => match digit_value c with Some d => read_digits (10 * v + d)%Z r | None => None end
  end.
Definition read_nat (t : list ascii) : option Z := match t with [] => None | _ => read_digits 0 t end.
Definition read_int (t : list ascii) : option Z :=
  match t with
  | c :: r => if Ascii.eqb c "-"%char then option_map Z.opp (read_nat r) else read_nat t
  | [] => None
  end.
(* digits before and after a point *)
Fixpoint split_at (s : ascii) (t : list ascii) : list ascii * option (list ascii) :=
  match t with
  | [] => ([], None)
  | c :: r => if Ascii.eqb c s then ([], Some r) else let (a, b) := split_at s r in (c :: a, b)
  end.
Definition read_unsigned (t : list ascii) : option Q :=
  match split_at "."%char t with
  | (a, Some b) => match read_nat a, read_digits 0 b with
                   | Some _, Some _ => option_map (fun n => (inject_Z n / inject_Z (10 ^ Z.of_nat (List.length b)))%Q) (read_digits 0 (a ++ b))
                   | _, _ => None
                   end
  | (a, None) => option_map inject_Z (read_nat a)
  end.
Definition read_number (t : list ascii) : option Q :=
  match t with
  | c :: r => if Ascii.eqb c "-"%char then option_map Qopp (read_unsigned r) else read_unsigned t
  | [] => None
  end.
Fixpoint all_some {A} (l : list (option A)) : option (list A) :=
  match l with
  | [] => Some []
  | Some x :: r => option_map (cons x) (all_some r)
  | None :: _ => None
  end.

(* ---- XML ---- *)
Definition is_blank (c : ascii) : bool := Ascii.eqb c " "%char || Ascii.eqb c (ascii_of_nat 10).
Inductive item := Tag (t : list ascii) | Word (t : list ascii) | Broken.
Inductive mode := Between | In_word (a : list ascii) | In_tag (a : list ascii).
Fixpoint lex (m : mode) (t : list ascii) : list item :=
  match t with
  | [] => match m with Between => [] | In_word a => [Word (rev a)] | In_tag _ => [Broken] end
  | c :: r =>
      match m with
      | In_tag a => if Ascii.eqb c ">"%char then Tag (rev a) :: lex Between r else lex (In_tag (c :: a)) r
      | In_word a => if Ascii.eqb c "<"%char then Word (rev a) :: lex (In_tag []) r
                     else if is_blank c then Word (rev a) :: lex Between r else lex (In_word (c :: a)) r
      | Between => if Ascii.eqb c "<"%char then lex (In_tag []) r else if is_blank c then lex Between r else lex (In_word [c]) r
      end
  end.
Fixpoint starts (p t : list ascii) : option (list ascii) :=
  match p, t with
  | [], _ => Some t
  | a :: p', b :: t' => if Ascii.eqb a b then starts p' t' else None
  | _ :: _, [] => None
  end.
(* the value of an attribute: what follows  key=  between quotes *)
Definition quote_char : ascii := ascii_of_nat 34.
Fixpoint attr (key t : list ascii) : option (list ascii) :=
  match starts (" "%char :: key ++ ["="%char; quote_char]) t with
  | Some r => match split_at quote_char r with (v, Some _) => Some v | _ => None end
  | None => match t with [] => None | _ :: r => attr key r end
  end.
(* the words up to the next tag *)
Fixpoint words (l : list item) : list (list ascii) := match l with Word w :: r => w :: words r | _ => [] end.
(* all arrays of the file: name and entries *)
Fixpoint arrays (l : list item) : list (option (list ascii) * list (list ascii)) :=
  match l with
  | [] => []
  | Tag t :: r => match starts (chr "DataArray") t with Some _ => (attr (chr "Name") t, words r) :: arrays r | None => arrays r end
  | _ :: r => arrays r
  end.
(* the numbers of points and cells *)
Fixpoint piece (l : list item) : option (list ascii * list ascii) :=
  match l with
  | [] => None
  | Tag t :: r => match starts (chr "Piece ") t with
                  | Some _ => match attr (chr "NumberOfPoints") t, attr (chr "NumberOfCells") t with Some a, Some b => Some (a, b) | _, _ => None end
                  | None => piece r
                  end
  | _ :: r => piece r
  end.
(* tags are closed in the right order *)
Definition tag_name (t : list ascii) : list ascii := fst (split_at " "%char t).
Fixpoint nested (open : list (list ascii)) (l : list item) : bool :=
  match l with
  | [] => match open with [] => true | _ => false end
  | Broken :: _ => false
  | Word _ :: r => match open with [] => false | _ => nested open r end
  | Tag t :: r =>
      match t with
      | c :: n => if Ascii.eqb c "/"%char
                  then match open with
                       | o :: os => if list_eq_dec ascii_dec o n then nested os r else false
                       | [] => false
                       end
                  else nested (tag_name t :: open) r
      | [] => false
      end
  end.

(* the entries of the array with a name, or of the one without *)
Definition same_name (a b : option (list ascii)) : bool :=
  match a, b with
  | None, None => true
  | Some x, Some y => if list_eq_dec ascii_dec x y then true else false
  | _, _ => false
  end.
Fixpoint lookup (n : option (list ascii)) (l : list (option (list ascii) * list (list ascii))) : option (list (list ascii)) :=
  match l with
  | [] => None
  | (k, ws) :: r => if same_name n k then Some ws else lookup n r
  end.
Definition array_of (n : option string) (t : list ascii) : option (list (list ascii)) := lookup (option_map chr n) (arrays (lex Between t)).
Definition ints_of (n : string) (t : list ascii) : option (list Z) :=
  match array_of (Some n) t with Some ws => all_some (map read_int ws) | None => None end.
Definition points_of (t : list ascii) : option (list Q) :=
  match array_of None t with Some ws => all_some (map read_number ws) | None => None end.

(* ---- lines ---- *)
Fixpoint lines (t : list ascii) : list (list ascii) :=
  match t with
  | [] => []
  | c :: r => if Ascii.eqb c (ascii_of_nat 10) then [] :: lines r
              else match lines r with [] => [[c]] | l :: ls => (c :: l) :: ls end
  end.
Fixpoint commas (t : list ascii) : list (list ascii) :=
  match t with
  | [] => [[]]
  | c :: r => if Ascii.eqb c ","%char then [] :: commas r
              else match commas r with [] => [[c]] | l :: ls => (c :: l) :: ls end
  end.
Fixpoint strip (t : list ascii) : list ascii := match t with c :: r => if is_blank c then strip r else t | [] => [] end.
(* a header  NAME number  and that many rows *)
Fixpoint sections (fuel : nat) (ls : list (list ascii)) : option (list (list ascii * list (list ascii))) :=
  match ls, fuel with
  | [], _ => Some []
  | h :: r, S f =>
      match split_at " "%char h with
      | (name, Some n) =>
          match read_nat n with
          | Some k => let k := Z.to_nat k in
                      if Nat.leb k (List.length r) then option_map (cons (name, firstn k r)) (sections f (skipn k r)) else None
          | None => None
          end
      | (_, None) => None
      end
  | _ :: _, O => None
  end.
(* a text file: the number of the mesh and the sections *)
Definition read_txt (t : list ascii) : option (Z * list (list ascii * list (list ascii))) :=
  match lines t with
  | h :: r => match starts (chr "MESH ") h with
              | Some n => match read_int n, sections (List.length r) r with Some i, Some s => Some (i, s) | _, _ => None end
              | None => None
              end
  | [] => None
  end.
Definition read_row (t : list ascii) : option (list Z) := all_some (map (fun w => read_int (strip w)) (commas t)).
Definition read_point (t : list ascii) : option (list Q) := all_some (map (fun w => read_number (strip w)) (commas t)).
