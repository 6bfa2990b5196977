(** ceil(log(n, b)) as the code computes it, in IEEE binary64 arithmetic
    (/repo/src/komm/_lossless_coding/LempelZiv78Code.py 96-120, LempelZivWelchCode.py 68-117, LempelZiv77Code.py 87-89,
    LempelZivSSCode.py 88-90, TunstallCode.py 63).
    CPython's math.log(x, b) is log(x) / log(b): two calls of the C library's log and one division.  The division is
    rounded to nearest even (Flocq's binary64 format); the C library's log is a parameter. *)
From Coq Require Import Reals.
From Flocq Require Import Core.
From Verif Require Import Common.
Local Open Scope R_scope.

Definition binary64 (x : R) : R := round radix2 (FLT_exp (-1074) 53) ZnearestE x.
Definition math_log (clog : R -> R) (x b : R) : R := binary64 (clog x / clog b).
(** math.ceil is exact *)
Definition float_width (clog : R -> R) (b n : N) : nat := Z.to_nat (Zceil (math_log clog (IZR (Z.of_N n)) (IZR (Z.of_N b)))).
(** TunstallCode.py 62-63: the default target_block_size, ceil(log2(pmf.size)); clog2 is the C library's log2 *)
Definition default_block_size (clog2 : R -> R) (n : nat) : nat := Z.to_nat (Zceil (clog2 (INR n))).
