(** Reading a printed object back: the part of Python's expression syntax that the __repr__ methods produce.
    [read] is what the Python interpreter does with the text: literals, lists, tuples, dictionaries and calls with
    positional and keyword arguments.  Only one space after a comma or a colon is accepted (Python accepts any number). *)
From Coq Require Import String Ascii.
From Verif Require Import Common.
Local Open Scope nat_scope.

Inductive expr :=
| EInt (z : Z)                                    (* 12, -3 *)
| EBin (n : N)                                    (* 0b1011 *)
| EBool (b : bool)
| EStr (s : string)                               (* 'left' *)
| EList (l : list expr)
| ETuple (l : list expr)
| EDict (l : list (expr * expr))
| ECall (f : string) (args : list (option string * expr)).

Definition is_digit (c : ascii) : bool := (48 <=? nat_of_ascii c) && (nat_of_ascii c <=? 57).
Definition is_letter (c : ascii) : bool :=
  ((65 <=? nat_of_ascii c) && (nat_of_ascii c <=? 90)) || ((97 <=? nat_of_ascii c) && (nat_of_ascii c <=? 122)) || (nat_of_ascii c =? 95).
Definition is_word (c : ascii) : bool := is_letter c || is_digit c.
Definition is_plain (c : ascii) : bool := negb (Ascii.eqb c "'") && negb (Ascii.eqb c "\").

(** longest prefix of characters satisfying p *)
Fixpoint span (p : ascii -> bool) (s : string) : string * string :=
  match s with
  | String c t => if p c then let '(a, b) := span p t in (String c a, b) else (EmptyString, s)
  | EmptyString => (EmptyString, EmptyString)
  end.
Fixpoint value_of (base : N) (acc : N) (s : string) : N :=
  match s with String c t => value_of base (base * acc + N.of_nat (nat_of_ascii c - 48))%N t | EmptyString => acc end.
Definition read_digits (s : string) : option (N * string) :=
  match span is_digit s with (EmptyString, _) => None | (ds, rest) => Some (value_of 10 0 ds, rest) end.
Definition read_number (s : string) : option (expr * string) :=
  match s with
  | String "0" (String "b" t) => match span is_digit t with (EmptyString, _) => None | (ds, rest) => Some (EBin (value_of 2 0 ds), rest) end
  | String "-" t => option_map (fun '(n, rest) => (EInt (- Z.of_N n), rest)) (read_digits t)
  | _ => option_map (fun '(n, rest) => (EInt (Z.of_N n), rest)) (read_digits s)
  end.

Fixpoint read (fuel : nat) (s : string) : option (expr * string) :=
  match fuel with
  | 0 => None
  | S fuel =>
      match s with
      | EmptyString => None
      | String c t =>
          if Ascii.eqb c "[" then option_map (fun '(l, _, rest) => (EList l, rest)) (read_items fuel "]"%char t)
          else if Ascii.eqb c "(" then
            option_map (fun '(l, comma, rest) => (match l, comma with [e], false => e | _, _ => ETuple l end, rest)) (read_items fuel ")"%char t)
          else if Ascii.eqb c "{" then option_map (fun '(l, rest) => (EDict l, rest)) (read_pairs fuel t)
          else if Ascii.eqb c "'" then
            match span is_plain t with (a, String "'" rest) => Some (EStr a, rest) | _ => None end
          else if is_letter c then
            match span is_word s with
            | (name, String "(" rest) => option_map (fun '(l, rest) => (ECall name l, rest)) (read_args fuel rest)
            | (name, rest) => if String.eqb name "True" then Some (EBool true, rest)
                              else if String.eqb name "False" then Some (EBool false, rest) else None
            end
          else read_number s
      end
  end
(* the elements up to the closing bracket, and whether there was a comma after the last one *)
with read_items (fuel : nat) (close : ascii) (s : string) : option (list expr * bool * string) :=
  match fuel with
  | 0 => None
  | S fuel =>
      match s with
      | EmptyString => None
      | String c t =>
          if Ascii.eqb c close then Some ([], false, t) else
          match read fuel s with
          | Some (e, String d rest) =>
              if Ascii.eqb d close then Some ([e], false, rest)
              else if Ascii.eqb d "," then
                match rest with
                | String x rest' =>
                    if Ascii.eqb x close then Some ([e], true, rest')
                    else if Ascii.eqb x " " then option_map (fun '(l, b, r) => (e :: l, b, r)) (read_items fuel close rest') else None
                | EmptyString => None
                end
              else None
          | _ => None
          end
      end
  end
with read_pairs (fuel : nat) (s : string) : option (list (expr * expr) * string) :=
  match fuel with
  | 0 => None
  | S fuel =>
      match s with
      | EmptyString => None
      | String c t =>
          if Ascii.eqb c "}" then Some ([], t) else
          match read fuel s with
          | Some (k, String ":" (String " " rest)) =>
              match read fuel rest with
              | Some (v, String "}" rest') => Some ([(k, v)], rest')
              | Some (v, String "," (String " " rest')) => option_map (fun '(l, r) => ((k, v) :: l, r)) (read_pairs fuel rest')
              | _ => None
              end
          | _ => None
          end
      end
  end
with read_args (fuel : nat) (s : string) : option (list (option string * expr) * string) :=
  match fuel with
  | 0 => None
  | S fuel =>
      match s with
      | EmptyString => None
      | String c t =>
          if Ascii.eqb c ")" then Some ([], t) else
          let '(name, s') := match span is_word s with
                             | (String a b, String "=" rest) => (Some (String a b), rest)
                             | _ => (None, s)
                             end in
          match read fuel s' with
          | Some (e, String ")" rest) => Some ([(name, e)], rest)
          | Some (e, String "," (String " " rest)) => option_map (fun '(l, r) => ((name, e) :: l, r)) (read_args fuel rest)
          | _ => None
          end
      end
  end.

(** the expression that a whole text denotes *)
Definition read_text (s : string) : option expr :=
  match read (2 * String.length s + 2) s with Some (e, EmptyString) => Some e | _ => None end.
