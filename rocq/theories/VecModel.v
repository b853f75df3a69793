(* VecND.h: vectors of N entries, as lists.  Entries are rational; a division by zero has no
   finite value and gives None. *)
From Verif Require Import Base UtilModel.
Open Scope Q_scope.

(* VecND.h:63-68: the constructor with a list of arguments; entries without argument are
   zero, too many arguments are refused by the compiler *)
Fixpoint vec_of (n : nat) (args : list Q) : option (list Q) :=
  match n, args with
  | O, [] => Some []
  | O, _ :: _ => None
  | S m, [] => option_map (cons 0) (vec_of m [])
  | S m, x :: r => option_map (cons x) (vec_of m r)
  end.
(* VecND.h:96-130: names of entries *)
Definition get_x (l : list Q) : option Q := nth_error l 0.
Definition get_y (l : list Q) : option Q := if (length l <? 2)%nat then nth_error l 0 else nth_error l 1.
Definition get_z (l : list Q) : option Q := if (length l <? 3)%nat then nth_error l 0 else nth_error l 2.

(* std::transform with one and with two inputs *)
Fixpoint transform2 {A} (f : Q -> Q -> A) (a b : list Q) : list A :=
  match a, b with x :: a', y :: b' => f x y :: transform2 f a' b' | _, _ => [] end.
Definition divides (x y : Q) : option Q := if Qeq_bool y 0 then None else Some (x / y).
(* VecND.h:139-145, 352-398 *)
Definition vec_neg (a : list Q) : list Q := map Qopp a.
Definition vec_add (a b : list Q) : list Q := transform2 Qplus a b.
Definition vec_sub (a b : list Q) : list Q := transform2 Qminus a b.
Definition vec_mul (a b : list Q) : list Q := transform2 Qmult a b.
Definition vec_div (a b : list Q) : list (option Q) := transform2 divides a b.
(* VecND.h:404-478: with a scalar on either side *)
Definition add_scalar (a : list Q) (s : Q) : list Q := map (fun x => x + s) a.
Definition scalar_add (s : Q) (a : list Q) : list Q := map (fun x => x + s) a.
Definition sub_scalar (a : list Q) (s : Q) : list Q := map (fun x => x - s) a.
Definition scalar_sub (s : Q) (a : list Q) : list Q := map (fun x => s - x) a.
Definition mul_scalar (a : list Q) (s : Q) : list Q := map (fun x => x * s) a.
Definition scalar_mul (s : Q) (a : list Q) : list Q := map (fun x => x * s) a.
Definition div_scalar (a : list Q) (s : Q) : list (option Q) := map (fun x => divides x s) a.
Definition scalar_div (s : Q) (a : list Q) : list (option Q) := map (fun x => divides s x) a.

(* VecND.h:150-224: the compound assignments write the entries one after the other.  The
   scalar is a reference, which may be an entry of the vector that is changed; the other
   vector may be the same vector.  The theorems hold for every operation f; for /= it is the
   division where no divisor is zero. *)
Inductive operand := Value (s : Q) | Entry (i : nat) | Other (b : list Q) | Itself.
Fixpoint set_entry (k : nat) (x : Q) (l : list Q) : list Q :=
  match k, l with
  | _, [] => []
  | O, _ :: r => x :: r
  | S k', y :: r => y :: set_entry k' x r
  end.
Definition read (o : operand) (l : list Q) (k : nat) : option Q :=
  match o with Value s => Some s | Entry i => nth_error l i | Other b => nth_error b k | Itself => nth_error l k end.
(* entries from k on, [n] of them; an access behind the end is undefined *)
Fixpoint assign_loop (f : Q -> Q -> Q) (o : operand) (n k : nat) (l : list Q) : outcome (list Q) :=
  match n with
  | O => Ok l
  | S m => match nth_error l k, read o l k with
           | Some x, Some y => assign_loop f o m (S k) (set_entry k (f x y) l)
           | _, _ => UB
           end
  end.
Definition assign (f : Q -> Q -> Q) (l : list Q) (o : operand) : outcome (list Q) := assign_loop f o (length l) 0 l.

(* VecND.h:230-239, 484-486: std::inner_product from T{} *)
Fixpoint inner_product (acc : Q) (a b : list Q) : Q :=
  match a, b with x :: a', y :: b' => inner_product (acc + x * y) a' b' | _, _ => acc end.
Definition vec_dot (a b : list Q) : Q := inner_product 0 a b.
Definition vec_norm2 (a : list Q) : Q := vec_dot a a.
(* 233-234; [sqrt] is std::sqrt *)
Definition vec_norm (sqrt : Q -> Q) (a : list Q) : Q := sqrt (vec_norm2 a).
(* VecND.h:250-266, 492-508 *)
Definition cross2 (a b : list Q) : option Q :=
  match get_x a, get_y a, get_x b, get_y b with
  | Some ax, Some ay, Some bx, Some by_ => Some (ax * by_ - ay * bx)
  | _, _, _, _ => None
  end.
Definition cross3 (a b : list Q) : option (list Q) :=
  match get_x a, get_y a, get_z a, get_x b, get_y b, get_z b with
  | Some ax, Some ay, Some az, Some bx, Some by_, Some bz => Some [ay * bz - az * by_; az * bx - ax * bz; ax * by_ - ay * bx]
  | _, _, _, _, _, _ => None
  end.
(* VecND.h:271-275, 513-518: the cosine that is passed to acos; None: 0/0 is not a number *)
Definition vec_cos (sqrt : Q -> Q) (a b : list Q) : option Q :=
  option_map (fun c => CLAMP c (-1) 1) (divides (vec_dot a b) (vec_norm sqrt a * vec_norm sqrt b)).
(* VecND.h:341-347 with 281-286 *)
Definition vec_eq (a b : list Q) : bool := vec_is_zero 2 (vec_sub a b).
(* VecND.h:308-309: std::min_element and max_element; no entry: the end is dereferenced *)
Definition vec_min (a : list Q) : outcome Q := match a with [] => UB | x :: r => Ok (fold_left (fun m y => if Qltb y m then y else m) r x) end.
Definition vec_max (a : list Q) : outcome Q := match a with [] => UB | x :: r => Ok (fold_left (fun m y => if Qltb m y then y else m) r x) end.
