(* Model of the CSV boundary reader, /repo/src/algorithm/Boundary.h:30-136.
   A file is the list of its characters. *)
From Coq Require Import Ascii String.
From Verif Require Import Base.

Definition text := list ascii.

(* std::getline(stream, cell, delim) called until it fails: a last piece
   without delimiter is returned, but nothing is returned for the empty rest
   after a last delimiter. *)
Fixpoint getlines (d : ascii) (cur : text) (s : text) {struct s} : list text :=
  match s with
  | [] => match cur with [] => [] | _ => [rev cur] end
  | c :: s' => if Ascii.eqb c d then rev cur :: getlines d [] s' else getlines d (c :: cur) s'
  end.
Definition newline : ascii := "010"%char.
Definition lines_of (file : text) : list text := getlines newline [] file.
Definition cells_of (line : text) : list text := getlines ","%char [] line.

(* std::stoi: optional white space, optional sign, at least one digit; what
   follows the digits is ignored.  None = invalid_argument or out_of_range
   (32 bit int). *)
Definition is_space (c : ascii) : bool :=
  let n := nat_of_ascii c in Nat.eqb n 32 || (Nat.leb 9 n && Nat.leb n 13).
Definition digit (c : ascii) : option Z :=
  let n := nat_of_ascii c in if Nat.leb 48 n && Nat.leb n 57 then Some (Z.of_nat (n - 48)) else None.
Fixpoint skip_space (s : text) : text :=
  match s with c :: s' => if is_space c then skip_space s' else s | [] => [] end.
Fixpoint digits (s : text) (acc : Z) : Z :=
  match s with
  | c :: s' => match digit c with Some d => digits s' (10 * acc + d)%Z | None => acc end
  | [] => acc
  end.
Definition stoi (s : text) : option Z :=
  let s := skip_space s in
  let '(neg, s) := match s with
                   | "-"%char :: s' => (true, s')
                   | "+"%char :: s' => (false, s')
                   | _ => (false, s) end in
  match s with
  | c :: _ => match digit c with
              | Some _ => let v := digits s 0%Z in
                          let v := if neg then (- v)%Z else v in
                          if ((v <? -2147483648) || (2147483647 <? v))%Z then None else Some v
              | None => None end
  | [] => None
  end.

Record row := Row { r_coord : vec2; r_prop : vec2; r_color : Z }.

Section Csv.
(* std::stod as an oracle, None = invalid_argument or out_of_range *)
Variable stod : text -> option Q.

(* lines 88-117: one cell; [r] are the local variables coords, props, color *)
Definition read_cell (i : nat) (cell : text) (r : row) : option row :=
  match i with
  | 0%nat => option_map (fun x => Row (V2 x (vy (r_coord r))) (r_prop r) (r_color r)) (stod cell)
  | 1%nat => option_map (fun y => Row (V2 (vx (r_coord r)) y) (r_prop r) (r_color r)) (stod cell)
  | 2%nat => option_map (fun c => Row (r_coord r) (r_prop r) c) (stoi cell)
  | 3%nat => option_map (fun x => Row (r_coord r) (V2 x (vy (r_prop r))) (r_color r)) (stod cell)
  | 4%nat => option_map (fun y => Row (r_coord r) (V2 (vx (r_prop r)) y) (r_color r)) (stod cell)
  | _ => Some r
  end.
Fixpoint read_cells (i : nat) (cells : list text) (r : row) {struct cells} : option (nat * row) :=
  match cells with
  | [] => Some (i, r)
  | c :: cells' => match read_cell i c r with Some r' => read_cells (S i) cells' r' | None => None end
  end.
(* lines 78-129: one line *)
Definition read_line (line : text) : outcome row :=
  match read_cells 0 (cells_of line) (Row (V2 0 0) (V2 0 0) (-1)) with
  | None => Throw
  | Some (n, r) => if Nat.ltb n 2 then Throw else if (r_color r <? 0)%Z then Throw else Ok r
  end.
(* lines 61-132; the three vectors are the components of the rows *)
Fixpoint read_rows (ls : list text) {struct ls} : outcome (list row) :=
  match ls with
  | [] => Ok []
  | l :: ls' => obind (read_line l) (fun r => obind (read_rows ls') (fun rs => Ok (r :: rs)))
  end.
(* None = the file cannot be opened *)
Definition read_csv (file : option text) : outcome (list vec2 * list vec2 * list Z) :=
  match file with
  | None => Throw
  | Some s => obind (read_rows (lines_of s)) (fun rs => Ok (map r_coord rs, map r_prop rs, map r_color rs))
  end.
End Csv.
