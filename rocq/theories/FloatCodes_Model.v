(** HuffmanCode, FanoCode and TunstallCode in double precision.

    The same lines as in [PmfCodes_Model], with every floating-point operation rounded to the nearest binary64 number
    ([Float_Model.binary64]); comparisons are those of the real numbers the doubles stand for (no NaN, no infinity, no
    overflow: all values are at most 2). *)
From Coq Require Import Reals QArith.
From Flocq Require Import Core.
From Verif Require Import Common Prefix_Model PmfCodes_Model Float_Model FloatShannon_Model.
Local Open Scope R_scope.

Definition rle (x y : R) : bool := if Rle_dec x y then true else false.
Definition rlt (x y : R) : bool := if Rlt_dec x y then true else false.

(* ---------------- Huffman *)
(* HuffmanCode.py 116-126, 133-135 *)
Record fnode := { fidx : nat; fprob : R; fleaf : bool }.
Definition fkey (pol : hpolicy) (n : fnode) : Z :=
  match pol, fleaf n with
  | High, false => Z.of_nat (fidx n)
  | _, _ => (- Z.of_nat (fidx n))%Z
  end.
(* comparison of the tuples (probability, sign * index) *)
Definition flt (pol : hpolicy) (a b : fnode) : bool :=
  if rlt (fprob a) (fprob b) then true else if rlt (fprob b) (fprob a) then false else (fkey pol a <? fkey pol b)%Z.
(* heapq.heappop: the least node *)
Fixpoint fheappop (pol : hpolicy) (h : list fnode) : option (fnode * list fnode) :=
  match h with
  | [] => None
  | x :: r =>
      match fheappop pol r with
      | None => Some (x, [])
      | Some (y, r') => if flt pol y x then Some (y, x :: r') else Some (x, r)
      end
  end.
(* HuffmanCode.py 144-157; line 149 adds with rounding *)
Fixpoint float_huffman_loop (fuel : nat) (pol : hpolicy) (links : list link) (heap : list fnode) : option (list link) :=
  match heap with
  | [] | [_] => Some links
  | _ =>
      match fuel with
      | O => None
      | S f =>
          match fheappop pol heap with
          | None => None
          | Some (node1, h1) =>
              match fheappop pol h1 with
              | None => None
              | Some (node0, h0) =>
                  let parent := {| fidx := length links; fprob := binary64 (fprob node0 + fprob node1); fleaf := false |} in
                  let links1 := set_link (fidx node1) (Some (fidx parent, 1%N)) links in
                  let links0 := set_link (fidx node0) (Some (fidx parent, 0%N)) links1 in
                  float_huffman_loop f pol (links0 ++ [None]) (parent :: h0)
              end
          end
      end
  end.
(* 137-142 *)
Definition float_leaf_nodes (pmf : list R) : list fnode :=
  map (fun ip => {| fidx := fst ip; fprob := snd ip; fleaf := true |}) (combine (seq 0 (length pmf)) pmf).
Definition float_huffman_tree (pmf : list R) (pol : hpolicy) : option (list link) :=
  float_huffman_loop (length pmf) pol (map (fun _ => None) pmf) (float_leaf_nodes pmf).
(* 184-201 and the constructor 74-95; depths and codewords are read off the tree as in PmfCodes_Model *)
Definition float_huffman_make (pmf : list R) (k : nat) (pol : hpolicy) (asg : hassignment) : option f2v :=
  let ext := float_products pmf k in
  match float_huffman_tree ext pol with
  | None => None
  | Some links =>
      match match asg with
            | Canonical => canonical_code (tree_lengths links (length ext)) 2
            | Tree => tree_codewords links (length ext)
            end with
      | None => None
      | Some ws => let S := N.of_nat (length pmf) in f2v_make S 2 k (dict_of_pairs (combine (tuples S k) ws))
      end
  end.

(* ---------------- Fano *)
(* sorted(np.ndenumerate(pmf), key=itemgetter(1), reverse=True): stable, decreasing *)
Fixpoint finsert_desc (x : nat * R) (l : list (nat * R)) : list (nat * R) :=
  match l with
  | [] => [x]
  | y :: r => if rle (snd y) (snd x) then x :: l else y :: finsert_desc x r
  end.
Definition fsort_desc (l : list (nat * R)) : list (nat * R) := fold_right finsert_desc [] l.
(* np.cumsum: running sums, rounded at every step *)
Fixpoint fcumsum_from (acc : R) (l : list R) : list R :=
  match l with [] => [] | p :: r => let a := binary64 (acc + p) in a :: fcumsum_from a r end.
Definition fcumsum (l : list R) : list R := match l with [] => [] | p :: r => p :: fcumsum_from p r end.
(* np.argmin: first index of a least element *)
Fixpoint fargmin_from (best : nat) (bv : R) (i : nat) (l : list R) : nat :=
  match l with
  | [] => best
  | x :: r => if rle bv x then fargmin_from best bv (S i) r else fargmin_from i x (S i) r
  end.
Definition fargmin (l : list R) : nat := match l with [] => 0 | x :: r => fargmin_from 0 x 1 r end.
Section Fano.
  (* np.sum: pairwise summation, in an order NumPy does not document; a parameter *)
  Variable npsum : list R -> R.
  (* FanoCode.py 93-94 *)
  Definition float_fano_split (probs : list R) : nat :=
    let half := binary64 (npsum probs / 2) in
    fargmin (map (fun c => Rabs (binary64 (c - half))) (fcumsum probs)).
  (* 86-97: one iteration per unit of fuel; the head of the list is the top of the stack *)
  Fixpoint float_fano_loop (fuel : nat) (items : list (nat * R)) (stack : list (nat * nat * nat)) (lengths : list nat)
    : option (list nat) :=
    match stack with
    | [] => Some lengths
    | (lo, hi, len) :: rest =>
        match fuel with
        | O => None
        | S f =>
            if (hi - lo =? 1)%nat then
              match nth_error items lo with
              | None => None
              | Some (x, _) => float_fano_loop f items rest (set_nat x len lengths)
              end
            else
              let probs := map snd (firstn (hi - lo) (skipn lo items)) in
              let mid := (lo + float_fano_split probs + 1)%nat in
              float_fano_loop f items ((lo, mid, S len) :: (mid, hi, S len) :: rest) lengths
        end
    end.
  (* 81-99 *)
  Definition float_fano_lengths (pmf : list R) : option (list nat) :=
    let items := fsort_desc (combine (seq 0 (length pmf)) pmf) in
    float_fano_loop (2 * length pmf) items [(0, length pmf, 0)%nat] (repeat 0%nat (length pmf)).
  (* 102-109 and the constructor 54-63 *)
  Definition float_fano_make (pmf : list R) (k : nat) : option f2v :=
    match float_fano_lengths (float_products pmf k) with
    | None => None
    | Some lengths =>
        match canonical_code lengths 2 with
        | None => None
        | Some ws => let S := N.of_nat (length pmf) in f2v_make S 2 k (dict_of_pairs (combine (tuples S k) ws))
        end
    end.
End Fano.

(* ---------------- Tunstall *)
(* TunstallCode.py 98-104 *)
Definition ftnode := (word * R)%type.
Section Tunstall.
  (* heapq.heappop without tie-break: an oracle *)
  Variable pop : list ftnode -> option (ftnode * list ftnode).
  (* 114-119; line 117 multiplies with rounding *)
  Fixpoint float_tunstall_grow (pmf : list R) (K : nat) (heap : list ftnode) : option (list ftnode) :=
    match K with
    | O => Some heap
    | S K' =>
        match pop heap with
        | None => None
        | Some ((w, p), rest) =>
            float_tunstall_grow pmf K'
              (rest ++ map (fun sq => (w ++ [fst sq], binary64 (p * snd sq))) (combine (range_N (N.of_nat (length pmf))) pmf))
        end
    end.
  (* 93-130 and the constructor 56-71; the number of rounds K (line 107) as in PmfCodes_Model *)
  Definition float_tunstall_make (pmf : list R) (n : nat) : option v2f :=
    let S := length pmf in
    if (2 ^ N.of_nat n <? N.of_nat S)%N then None else
    if (S <=? 1)%nat then None else
    let heap := map (fun sp => ([fst sp], snd sp)) (combine (range_N (N.of_nat S)) pmf) in
    match float_tunstall_grow pmf (tunstall_K S n) heap with
    | None => None
    | Some h => v2f_make 2 (N.of_nat S) n (dict_of_pairs (combine (tuples 2 n) (sort_lex (map fst h))))
    end.
End Tunstall.
