(* Model of HuffmanCode.py, FanoCode.py, ShannonCode.py and TunstallCode.py in
   /repo/src/komm/_lossless_coding.
   Probabilities are exact rationals: floating-point rounding of sums and products is not modelled.
   heapq is modelled by its contract: heappop returns a least element. *)
From Verif Require Import Common Prefix_Model.
From Coq Require Import QArith Qabs.
Local Open Scope nat_scope.

(* reduce(np.multiply.outer, [pmf] * k).ravel(), row-major. *)
Fixpoint outer_power (pmf : list Q) (k : nat) : list Q :=
  match k with
  | O => [1%Q]
  | S O => pmf
  | S k' => flat_map (fun a => map (fun b => (a * b)%Q) pmf) (outer_power pmf k')
  end.

(* ---------------- Huffman *)
Inductive hpolicy := High | Low.
(* HuffmanCode.py 115-125: the immutable fields of a Node.  The mutable ones (parent, bit) are kept
   in a separate list indexed by node index, since heap and tree share the Node objects;
   None stands for parent = -1. *)
Record hnode := { nidx : nat; nprob : Q; nleaf : bool }.
Notation link := (option (nat * N)) (only parsing).

(* 133-135: key = (probability, sign * index) *)
Definition hkey (pol : hpolicy) (n : hnode) : Q * Z :=
  (nprob n, match pol, nleaf n with
            | High, false => Z.of_nat (nidx n)
            | _, _ => (- Z.of_nat (nidx n))%Z
            end).
(* 124-125: tuple comparison *)
Definition hlt (pol : hpolicy) (a b : hnode) : bool :=
  match Qcompare (fst (hkey pol a)) (fst (hkey pol b)) with
  | Lt => true
  | Gt => false
  | Eq => (snd (hkey pol a) <? snd (hkey pol b))%Z
  end.

(* heapq.heappop: the least element and the others. *)
Fixpoint heappop (pol : hpolicy) (h : list hnode) : option (hnode * list hnode) :=
  match h with
  | [] => None
  | x :: r =>
      match heappop pol r with
      | None => Some (x, [])
      | Some (y, r') => if hlt pol y x then Some (y, x :: r') else Some (x, r)
      end
  end.

Fixpoint set_link (i : nat) (v : link) (l : list link) : list link :=
  match l, i with
  | [], _ => []
  | _ :: r, O => v :: r
  | x :: r, S j => x :: set_link j v r
  end.

(* 144-157: one iteration per unit of fuel. *)
Fixpoint huffman_loop (fuel : nat) (pol : hpolicy) (links : list link) (heap : list hnode) : option (list link) :=
  match heap with
  | [] | [_] => Some links
  | _ =>
      match fuel with
      | O => None
      | S f =>
          match heappop pol heap with
          | None => None
          | Some (node1, h1) =>
              match heappop pol h1 with
              | None => None
              | Some (node0, h0) =>
                  let parent := {| nidx := length links; nprob := (nprob node0 + nprob node1)%Q; nleaf := false |} in
                  let links1 := set_link (nidx node1) (Some (nidx parent, 1%N)) links in
                  let links0 := set_link (nidx node0) (Some (nidx parent, 0%N)) links1 in
                  huffman_loop f pol (links0 ++ [None]) (parent :: h0)
              end
          end
      end
  end.
(* 137-140 *)
Definition leaf_nodes (pmf : list Q) : list hnode :=
  map (fun ip => {| nidx := fst ip; nprob := snd ip; nleaf := true |}) (combine (seq 0 (length pmf)) pmf).
(* 128-159; the result is the (parent, bit) list of the tree. *)
Definition huffman_tree (pmf : list Q) (pol : hpolicy) : option (list link) :=
  huffman_loop (length pmf) pol (map (fun _ => None) pmf) (leaf_nodes pmf).

(* 176-179: following the parents; None = IndexError or fuel exhausted (shown impossible). *)
Fixpoint walk_up (fuel : nat) (links : list link) (i : nat) : option word :=
  match nth_error links i with
  | None => None
  | Some None => Some []
  | Some (Some (p, b)) =>
      match fuel with
      | O => None
      | S f => match walk_up f links p with Some r => Some (b :: r) | None => None end
      end
  end.
Fixpoint sequence {A} (l : list (option A)) : option (list A) :=
  match l with
  | [] => Some []
  | None :: _ => None
  | Some x :: r => match sequence r with Some y => Some (x :: y) | None => None end
  end.
(* 171-181 *)
Definition tree_codewords (links : list link) (size : nat) : option (list word) :=
  sequence (map (fun i => match walk_up (length links) links i with Some b => Some (rev b) | None => None end) (seq 0 size)).

Fixpoint set_nat (i : nat) (v : nat) (l : list nat) : list nat :=
  match l, i with
  | [], _ => []
  | _ :: r, O => v :: r
  | x :: r, S j => x :: set_nat j v r
  end.
(* 162-168 *)
Definition tree_lengths (links : list link) (size : nat) : list nat :=
  firstn size
    (fold_left (fun depths i => match nth_error links i with
                                | Some (Some (p, _)) => set_nat i (nth p depths 0 + 1) depths
                                | _ => depths
                                end)
       (rev (seq 0 (length links))) (repeat 0 (length links))).

Inductive hassignment := Tree | Canonical.
(* 194-198 *)
Definition huffman_codewords (pmf : list Q) (pol : hpolicy) (asg : hassignment) : option (list word) :=
  match huffman_tree pmf pol with
  | None => None
  | Some links =>
      match asg with
      | Canonical => canonical_code (tree_lengths links (length pmf)) 2
      | Tree => tree_codewords links (length pmf)
      end
  end.
(* 184-201: np.ndindex of the block shape is the list of tuples; and 74-95: the constructor. *)
Definition huffman_make (pmf : list Q) (k : nat) (pol : hpolicy) (asg : hassignment) : option f2v :=
  match huffman_codewords (outer_power pmf k) pol asg with
  | None => None
  | Some ws =>
      let S := N.of_nat (length pmf) in
      f2v_make S 2 k (dict_of_pairs (combine (tuples S k) ws))
  end.

(* ---------------- Fano *)
(* sorted(np.ndenumerate(pmf), key=itemgetter(1), reverse=True): stable, decreasing. *)
Fixpoint insert_desc (x : nat * Q) (l : list (nat * Q)) : list (nat * Q) :=
  match l with
  | [] => [x]
  | y :: r => if Qle_bool (snd y) (snd x) then x :: l else y :: insert_desc x r
  end.
Definition sort_desc (l : list (nat * Q)) : list (nat * Q) := fold_right insert_desc [] l.

Fixpoint cumsum (acc : Q) (l : list Q) : list Q :=
  match l with [] => [] | p :: r => let a := (acc + p)%Q in a :: cumsum a r end.
Definition qsum (l : list Q) : Q := fold_right Qplus 0%Q l.
(* np.argmin: first index of a least element. *)
Fixpoint argmin_from (best : nat) (bv : Q) (i : nat) (l : list Q) : nat :=
  match l with
  | [] => best
  | x :: r => if Qle_bool bv x then argmin_from best bv (S i) r else argmin_from i x (S i) r
  end.
Definition argmin (l : list Q) : nat := match l with [] => 0 | x :: r => argmin_from 0 x 1 r end.

(* FanoCode.py 93-94 *)
Definition fano_split (probs : list Q) : nat :=
  argmin (map (fun c => Qabs (c - qsum probs / 2)) (cumsum 0 probs)).

(* 86-97: one iteration per unit of fuel; the head of the list is the top of the stack. *)
Fixpoint fano_loop (fuel : nat) (items : list (nat * Q)) (stack : list (nat * nat * nat)) (lengths : list nat)
  : option (list nat) :=
  match stack with
  | [] => Some lengths
  | (lo, hi, len) :: rest =>
      match fuel with
      | O => None
      | S f =>
          if hi - lo =? 1 then
            match nth_error items lo with
            | None => None
            | Some (x, _) => fano_loop f items rest (set_nat x len lengths)
            end
          else
            let probs := map snd (firstn (hi - lo) (skipn lo items)) in
            let mid := lo + fano_split probs + 1 in
            fano_loop f items ((lo, mid, S len) :: (mid, hi, S len) :: rest) lengths
      end
  end.
(* 81-99 *)
Definition fano_code_lengths (pmf : list Q) : option (list nat) :=
  let items := sort_desc (combine (seq 0 (length pmf)) pmf) in
  fano_loop (2 * length pmf) items [(0, length pmf, 0)] (repeat 0 (length pmf)).
(* 102-109 and the constructor 54-63 *)
Definition fano_make (pmf : list Q) (k : nat) : option f2v :=
  match fano_code_lengths (outer_power pmf k) with
  | None => None
  | Some lengths =>
      match canonical_code lengths 2 with
      | None => None
      | Some ws => let S := N.of_nat (length pmf) in f2v_make S 2 k (dict_of_pairs (combine (tuples S k) ws))
      end
  end.

(* ---------------- Shannon *)
(* ShannonCode.py 87: max(1, ceil(log2(1/p))), i.e. the least l >= 1 with 2^l * p >= 1. *)
Fixpoint shannon_from (fuel : nat) (p : Q) (l : nat) : nat :=
  match fuel with
  | O => l
  | S f => if Qle_bool 1 (p * inject_Z (2 ^ Z.of_nat l)) then l else shannon_from f p (S l)
  end.
Definition shannon_length (p : Q) : nat := shannon_from (Pos.size_nat (Qden p)) p 1.
(* 56-67, 91-98 *)
Definition shannon_make (pmf : list Q) (k : nat) : option f2v :=
  if forallb (fun p => negb (Qle_bool p 0)) pmf then
    match canonical_code (map shannon_length (outer_power pmf k)) 2 with
    | None => None
    | Some ws => let S := N.of_nat (length pmf) in f2v_make S 2 k (dict_of_pairs (combine (tuples S k) ws))
    end
  else None.

(* ---------------- Tunstall *)
(* TunstallCode.py 98-104 *)
Definition tnode := (word * Q)%type.
Section Tunstall.
  (* heapq.heappop for a heap without tie-break: an oracle (the theorems assume it returns an element
     of greatest probability). *)
  Variable pop : list tnode -> option (tnode * list tnode).
  (* 114-119 *)
  Fixpoint tunstall_grow (pmf : list Q) (K : nat) (heap : list tnode) : option (list tnode) :=
    match K with
    | O => Some heap
    | S K' =>
        match pop heap with
        | None => None
        | Some ((w, p), rest) =>
            tunstall_grow pmf K'
              (rest ++ map (fun sq => (w ++ [fst sq], (p * snd sq)%Q)) (combine (range_N (N.of_nat (length pmf))) pmf))
        end
    end.
  (* 107: K = ceil((2**n - S) / (S - 1)) - 1; range(K) is empty for K <= 0. *)
  Definition tunstall_K (S : nat) (n : nat) : nat :=
    Z.to_nat (((2 ^ Z.of_nat n - Z.of_nat S + (Z.of_nat S - 1) - 1) / (Z.of_nat S - 1) - 1)%Z).
  Fixpoint word_leb (a b : word) : bool :=
    match a, b with
    | [], _ => true
    | _ :: _, [] => false
    | x :: a', y :: b' => if (x <? y)%N then true else if (x =? y)%N then word_leb a' b' else false
    end.
  Fixpoint insert_lex (w : word) (l : list word) : list word :=
    match l with [] => [w] | x :: r => if word_leb w x then w :: l else x :: insert_lex w r end.
  Definition sort_lex (l : list word) : list word := fold_right insert_lex [] l.
  (* 93-130 and the constructor 56-71; S = 1 raises ZeroDivisionError. *)
  Definition tunstall_make (pmf : list Q) (n : nat) : option v2f :=
    let S := length pmf in
    if (2 ^ N.of_nat n <? N.of_nat S)%N then None else
    if S <=? 1 then None else
    let heap := map (fun sp => ([fst sp], snd sp)) (combine (range_N (N.of_nat S)) pmf) in
    match tunstall_grow pmf (tunstall_K S n) heap with
    | None => None
    | Some h =>
        v2f_make 2 (N.of_nat S) n (dict_of_pairs (combine (tuples 2 n) (sort_lex (map fst h))))
    end.
End Tunstall.
