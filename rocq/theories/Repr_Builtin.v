(** Python's str/repr of the built-in values that occur in printed objects: integers, bin(), booleans, strings without
    quotes, lists, tuples, dictionaries. *)
From Coq Require Import String Ascii.
From Verif Require Import Common Repr_Spec.
Local Open Scope string_scope.
Local Open Scope nat_scope.

Fixpoint to_digits (base : N) (fuel : nat) (n : N) (acc : string) : string :=
  let acc := String (ascii_of_nat (48 + N.to_nat (n mod base))) acc in
  match fuel with
  | 0 => acc
  | S fuel => if (n / base =? 0)%N then acc else to_digits base fuel (n / base) acc
  end.
Definition dec (n : N) : string := to_digits 10 (N.size_nat n) n "".
Definition py_int (z : Z) : string := if (z <? 0)%Z then "-" ++ dec (Z.to_N (- z)) else dec (Z.to_N z).
Definition py_bin (n : N) : string := "0b" ++ to_digits 2 (N.size_nat n) n "".
Definition py_bool (b : bool) : string := if b then "True" else "False".
Definition join (l : list string) : string := String.concat ", " l.

Definition py_arg (p : option string) (t : string) : string := match p with None => t | Some n => n ++ "=" ++ t end.
Fixpoint print (e : expr) : string :=
  match e with
  | EInt z => py_int z
  | EBin n => py_bin n
  | EBool b => py_bool b
  | EStr s => "'" ++ s ++ "'"
  | EList l => "[" ++ join (map print l) ++ "]"
  | ETuple l => match l with [e] => "(" ++ print e ++ ",)" | _ => "(" ++ join (map print l) ++ ")" end
  | EDict l => "{" ++ join (map (fun '(k, v) => print k ++ ": " ++ print v) l) ++ "}"
  | ECall f args => f ++ "(" ++ join (map (fun '(p, e) => py_arg p (print e)) args) ++ ")"
  end.
