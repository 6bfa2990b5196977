(** C95: sampling-rate conversion along any axis.  C96: convolution. *)
From Coq Require Import Reals.
From Coquelicot Require Import Complex.
From Verif Require Import Common Signal_Model Signal_Proof Corr_Model Array_Model Array_Spec Array_Proof Array_Lift SignalNd_Model SignalNd_Spec Convolve_Proof.
Local Open Scope nat_scope.

(** The compressed array keeps the samples offset, offset + factor, ... of the axis, for every
    position of the other axes. *)
Theorem C95_compress {A} (d : A) (a : array A) (pre post : list nat) (n : nat) (f o axis : Z) :
  well_formed a -> shape a = pre ++ n :: post -> is_axis axis pre post -> (0 <= o < f)%Z ->
  exists out m, compress_nd d a f o axis = Some out /\ well_formed out /\ shape out = pre ++ m :: post /\
    forall k, (k < m <-> Z.to_nat o + k * Z.to_nat f < n) /\
    forall p q, k < m -> valid_index pre p -> valid_index post q -> get d out (p ++ k :: q) = get d a (p ++ (Z.to_nat o + k * Z.to_nat f) :: q).
Proof.
  intros W Hs Ha Ho. unfold compress_nd. destruct (Z.ltb_spec 0 f); [|lia]. destruct (Z.leb_spec 0 o); [|lia]. destruct (Z.ltb_spec o f); [|lia]. cbn [negb andb].
  rewrite (is_axis_norm a pre post n axis Hs Ha). rewrite (sh_nth pre post n a Hs). eexists _, _. split; [reflexivity|].
  split; [apply (along_wf d d pre post n a Hs)|]. split; [apply (along_shape d d pre post n a Hs)|].
  assert (Hf : 0 < Z.to_nat f) by lia. intros k. split; [apply (slots_eq' n _ _ Hf)|]. intros p q Hk Hp Hq.
  rewrite (along_get d d pre post n a Hs) by assumption. unfold strided. rewrite line_length. rewrite nth_map_seq by exact Hk.
  apply nth_line. apply slots_eq' in Hk; assumption.
Qed.
(** The expanded array is factor times as long along the axis; sample k lands at position
    k * factor + offset and everything else is zero. *)
Theorem C95_expand {A} (zero : A) (a : array A) (pre post : list nat) (n : nat) (f o axis : Z) :
  well_formed a -> shape a = pre ++ n :: post -> is_axis axis pre post -> (0 <= o < f)%Z ->
  exists out, expand_nd zero a f o axis = Some out /\ well_formed out /\ shape out = pre ++ (n * Z.to_nat f) :: post /\
    forall k r p q, k < n -> r < Z.to_nat f -> valid_index pre p -> valid_index post q ->
    get zero out (p ++ (k * Z.to_nat f + r) :: q) = if r =? Z.to_nat o then get zero a (p ++ k :: q) else zero.
Proof.
  intros W Hs Ha Ho. unfold expand_nd. destruct (Z.ltb_spec 0 f); [|lia]. destruct (Z.leb_spec 0 o); [|lia]. destruct (Z.ltb_spec o f); [|lia]. cbn [negb andb].
  rewrite (is_axis_norm a pre post n axis Hs Ha). rewrite (sh_nth pre post n a Hs).
  rewrite slots_eq, Nat.eqb_refl by lia. cbn [negb]. eexists. split; [reflexivity|].
  split; [apply (along_wf zero zero pre post n a Hs)|]. split; [apply (along_shape zero zero pre post n a Hs)|].
  intros k r p q Hk Hr Hp Hq. rewrite (along_get zero zero pre post n a Hs) by (try assumption; nia).
  destruct (expand_some zero (line zero a n p q) f o Ho) as (y & E). pose proof (expand_nth _ _ _ _ _ E) as [_ N].
  apply expand_inv in E as (_ & _ & _ & ->). rewrite line_length in *. rewrite N by assumption.
  destruct (r =? Z.to_nat o); [apply nth_line; exact Hk|reflexivity].
Qed.
Theorem C95_round_trip {A} (zero : A) (a : array A) (pre post : list nat) (n : nat) (f o axis : Z) :
  well_formed a -> shape a = pre ++ n :: post -> is_axis axis pre post -> (0 <= o < f)%Z ->
  exists e, expand_nd zero a f o axis = Some e /\ compress_nd zero e f o axis = Some a.
Proof.
  intros W Hs Ha Ho. destruct (C95_expand zero a pre post n f o axis W Hs Ha Ho) as (e & E & We & Se & Ge).
  exists e. split; [exact E|]. destruct (C95_compress zero e pre post _ f o axis We Se Ha Ho) as (b & m & C & Wb & Sb & Gb).
  rewrite C. f_equal.
  assert (M : m = n).
  { assert (M : forall k, k < m <-> k < n) by (intros k; rewrite (proj1 (Gb k)); split; intros; nia).
    destruct (Nat.lt_trichotomy m n) as [X|[X|X]]; auto; apply M in X; lia. }
  subst m. apply (array_ext zero); try assumption; [congruence|]. intros idx V. rewrite Sb in V.
  destruct (index_split _ _ _ _ V) as (p & k & q & -> & Hp & Hk & Hq). rewrite (proj2 (Gb k) p q Hk Hp Hq).
  rewrite Nat.add_comm, Ge by (try assumption; lia). rewrite Nat.eqb_refl. reflexivity.
Qed.
(** Rejected: a factor or offset out of range, or an axis the array does not have. *)
Theorem C95_rejects {A} (d : A) (a : array A) (f o axis : Z) :
  (~ (0 <= o < f)%Z \/ ~ (- Z.of_nat (length (shape a)) <= axis < Z.of_nat (length (shape a)))%Z) ->
  compress_nd d a f o axis = None /\ expand_nd d a f o axis = None.
Proof.
  intros H. unfold compress_nd, expand_nd, norm_axis.
  destruct (Z.ltb_spec 0 f); cbn [negb]; [|auto]. destruct (Z.leb_spec 0 o), (Z.ltb_spec o f); cbn [negb andb]; auto.
  destruct (Z.leb_spec (- Z.of_nat (length (shape a))) axis), (Z.ltb_spec axis (Z.of_nat (length (shape a)))); cbn [andb]; auto. lia.
Qed.
Example C95_example : expand_nd 0%Z (Arr [2; 2] [1; 2; 3; 4]%Z) 2 1 0 = Some (Arr [4; 2] [0; 0; 1; 2; 0; 0; 3; 4]%Z) /\
  compress_nd 0%Z (Arr [2; 5] [1; 2; 3; 4; 5; 6; 7; 8; 9; 10]%Z) 3 1 (-1) = Some (Arr [2; 2] [2; 5; 7; 10]%Z).
Proof. split; reflexivity. Qed.

(** numpy's dtypes satisfy the laws used below (exactly, in the real-number model). *)
Theorem C96_dtypes : semiring int_dtype /\ semiring real_dtype /\ semiring complex_dtype.
Proof. split; [exact int_semiring|]. split; [exact real_semiring|exact complex_semiring]. Qed.
(** Two one-dimensional signals. *)
Theorem C96_signals (T : dtype) (x y : list T) (axis : Z) (mode : conv_mode) : semiring T -> axis = 0%Z \/ axis = (-1)%Z ->
  x <> [] -> y <> [] ->
  convolve T (Arr [length x] x) (Arr [length y] y) axis mode = Some (Arr [conv_count (length x) (length y) mode] (conv_samples T x y mode)).
Proof.
  intros L Ha Hx Hy. unfold convolve. cbn [shape data length Nat.eqb]. destruct x as [|x0 x]; [congruence|]. destruct y as [|y0 y]; [congruence|].
  set (X := x0 :: x) in *. set (Y := y0 :: y) in *. set (a := Arr [length Y] Y).
  assert (HL : line (d_zero T) a (length Y) [] [] = Y).
  { apply (list_ext (d_zero T)); [apply line_length|]. intros i Hi. rewrite line_length in Hi. rewrite nth_line by exact Hi.
    unfold get, a. cbn [shape data ravel app]. f_equal. cbn. lia. }
  destruct (apply_ok (d_zero T) (d_zero T) [] [] (length Y) a eq_refl (fun y => np_convolve T X y mode) axis (conv_count (length X) (length Y) mode)) as (out & E & Wo & So & Go).
  - apply (is_axis_norm a [] [] (length Y)); [reflexivity|]. destruct Ha as [->| ->]; [left|right]; reflexivity.
  - cbn. lia.
  - intros p q Hp Hq. inversion Hp; inversion Hq; subst. rewrite HL, (np_convolve_spec T L). cbn [length X Y Nat.eqb orb]. eexists. split; [reflexivity|]. apply conv_samples_length.
  - rewrite E. f_equal. specialize (Go [] [] (Forall2_nil _) (Forall2_nil _)). rewrite HL, (np_convolve_spec T L) in Go. cbn [X Y Nat.eqb orb] in Go.
    destruct out as [so d]. cbn [shape app] in So. subst so. f_equal.
    assert (D : length d = conv_count (length X) (length Y) mode) by (unfold well_formed in Wo; cbn [shape data] in Wo; rewrite Wo; unfold prod; cbn; lia).
    assert (ED : line (d_zero T) (Arr [conv_count (length X) (length Y) mode] d) (conv_count (length X) (length Y) mode) [] [] = d).
    { apply (list_ext (d_zero T)); [rewrite line_length; auto|]. intros i Hi. rewrite line_length in Hi. rewrite nth_line by exact Hi.
      unfold get. cbn [shape data ravel app]. f_equal. unfold prod. cbn. lia. }
    rewrite ED in Go. cbn [length Nat.eqb orb] in Go. injection Go as Go. symmetry. exact Go.
Qed.
(** A signal and an array of signals: every line along the axis is convolved, in either argument order. *)
Theorem C96_lines (T : dtype) (x : list T) (arr : array T) (pre post : list nat) (n : nat) (axis : Z) (mode : conv_mode) : semiring T ->
  well_formed arr -> shape arr = pre ++ n :: post -> is_axis axis pre post -> Forall (lt 0) pre -> Forall (lt 0) post -> x <> [] -> 0 < n ->
  exists out, convolve T (Arr [length x] x) arr axis mode = Some out /\
    (length (shape arr) <> 1 -> convolve T arr (Arr [length x] x) axis mode = Some out) /\
    well_formed out /\ shape out = pre ++ conv_count (length x) n mode :: post /\
    forall p q, valid_index pre p -> valid_index post q ->
      line (d_zero T) out (conv_count (length x) n mode) p q = conv_samples T x (line (d_zero T) arr n p q) mode.
Proof.
  intros L W Hs Ha Hp Hq Hx Hn. destruct x as [|x0 x]; [congruence|]. set (X := x0 :: x) in *.
  assert (E0 : forall p q, np_convolve T X (line (d_zero T) arr n p q) mode = Some (conv_samples T X (line (d_zero T) arr n p q) mode)).
  { intros p q. rewrite (np_convolve_spec T L), line_length. cbn [length X Nat.eqb orb]. destruct (Nat.eqb_spec n 0); [lia|reflexivity]. }
  pose proof (prod_pos _ Hp). pose proof (prod_pos _ Hq).
  destruct (apply_ok (d_zero T) (d_zero T) pre post n arr Hs (fun y => np_convolve T X y mode) axis (conv_count (length X) n mode)) as (out & E & Wo & So & Go).
  - exact (is_axis_norm arr pre post n axis Hs Ha).
  - nia.
  - intros p q _ _. rewrite E0. eexists. split; [reflexivity|]. rewrite conv_samples_length, line_length. reflexivity.
  - exists out. unfold convolve. cbn [shape data length Nat.eqb]. split; [exact E|]. split.
    { intros NE. apply Nat.eqb_neq in NE. rewrite NE. exact E. }
    split; [exact Wo|]. split; [exact So|]. intros p q Vp Vq. specialize (Go p q Vp Vq). rewrite E0 in Go. injection Go as Go. symmetry. exact Go.
Qed.
(** Convolution is commutative, and associative in full mode. *)
Theorem C96_commutative (T : dtype) (a b : array T) (axis : Z) (mode : conv_mode) : semiring T ->
  well_formed a -> well_formed b -> length (shape a) = 1 -> length (shape b) = 1 -> axis = 0%Z \/ axis = (-1)%Z ->
  convolve T a b axis mode = convolve T b a axis mode.
Proof.
  intros L Wa Wb Sa Sb Ha. destruct a as [sa da], b as [sb db]. cbn [shape] in *.
  destruct sa as [|na [|? ?]]; try discriminate. destruct sb as [|nb [|? ?]]; try discriminate.
  unfold well_formed in *. cbn [shape data prod fold_right] in *. rewrite Nat.mul_1_r in *. subst na nb.
  assert (EMP : forall x y : list T, x = [] \/ y = [] -> convolve T (Arr [length x] x) (Arr [length y] y) axis mode = None).
  { intros x y H. unfold convolve. cbn [shape data length Nat.eqb].
    apply (apply_raises (d_zero T) (d_zero T) [] [] (length y) (Arr [length y] y) eq_refl).
    - left. exists [], []. split; [constructor|]. split; [constructor|]. rewrite (np_convolve_spec T L), line_length.
      destruct H as [-> | ->]; cbn [length Nat.eqb orb]; [reflexivity|]. rewrite orb_true_r. reflexivity.
    - apply (is_axis_norm (Arr [length y] y) [] [] (length y)); [reflexivity|]. destruct Ha as [-> | ->]; [left|right]; reflexivity. }
  destruct da as [|a0 da]; [rewrite !EMP by auto; reflexivity|]. destruct db as [|b0 db]; [rewrite !EMP by auto; reflexivity|].
  rewrite !(C96_signals T) by (try assumption; discriminate). f_equal. rewrite (conv_samples_comm T L). f_equal. f_equal.
  unfold conv_count. destruct mode; lia.
Qed.
Theorem C96_associative (T : dtype) (x y z : list T) (axis : Z) : semiring T -> axis = 0%Z \/ axis = (-1)%Z -> x <> [] -> y <> [] -> z <> [] ->
  exists xy yz w, convolve T (Arr [length x] x) (Arr [length y] y) axis Full = Some xy /\
    convolve T (Arr [length y] y) (Arr [length z] z) axis Full = Some yz /\
    convolve T xy (Arr [length z] z) axis Full = Some w /\ convolve T (Arr [length x] x) yz axis Full = Some w.
Proof.
  intros L Ha Hx Hy Hz.
  assert (NE : forall l : list T, l <> [] <-> 0 < length l) by (intros [|? ?]; cbn; split; try lia; try congruence; intros _; try lia; discriminate).
  pose proof (proj1 (NE x) Hx). pose proof (proj1 (NE y) Hy). pose proof (proj1 (NE z) Hz).
  eexists _, _, _. split; [apply C96_signals; assumption|]. split; [apply C96_signals; assumption|].
  rewrite <- !(conv_samples_length T).
  assert (NC : forall u v : list T, 0 < length u -> 0 < length v -> conv_samples T u v Full <> []) by (intros u v ? ?; apply NE; rewrite conv_samples_length; cbn; lia).
  split; [apply C96_signals; auto|]. rewrite C96_signals by auto. f_equal.
  rewrite (conv_samples_assoc T L) by assumption. f_equal. f_equal. rewrite !conv_samples_length. cbn [conv_count]. lia.
Qed.
(** Rejected: two arrays that are both not one-dimensional; an empty signal; an axis the array does not have. *)
Theorem C96_rejects (T : dtype) (a b : array T) (axis : Z) (mode : conv_mode) : semiring T ->
  (length (shape a) <> 1 /\ length (shape b) <> 1 -> convolve T a b axis mode = None) /\
  (length (shape a) = 1 -> ~ (- Z.of_nat (length (shape b)) <= axis < Z.of_nat (length (shape b)))%Z -> convolve T a b axis mode = None) /\
  (forall pre post n, shape a = [length (data a)] -> shape b = pre ++ n :: post -> is_axis axis pre post -> Forall (lt 0) pre -> Forall (lt 0) post ->
     data a = [] \/ n = 0 -> convolve T a b axis mode = None).
Proof.
  intros L. split; [|split].
  - intros [H1 H2]. apply Nat.eqb_neq in H1, H2. unfold convolve. rewrite H1, H2. reflexivity.
  - intros H1 Ha. unfold convolve. rewrite H1. cbn [Nat.eqb]. unfold apply_along_axis, norm_axis.
    destruct (Z.leb_spec (- Z.of_nat (length (shape b))) axis), (Z.ltb_spec axis (Z.of_nat (length (shape b)))); cbn [andb]; try reflexivity. lia.
  - intros pre post n Sa Sb Ha Hp Hq H. unfold convolve. rewrite Sa. cbn [length Nat.eqb].
    apply (apply_raises (d_zero T) (d_zero T) pre post n b Sb); [|exact (is_axis_norm b pre post n axis Sb Ha)].
    left. exists (map (fun _ => 0) pre), (map (fun _ => 0) post).
    assert (V : forall s, Forall (lt 0) s -> valid_index s (map (fun _ => 0) s)) by (intros s Hs; induction Hs; constructor; assumption).
    split; [apply V; exact Hp|]. split; [apply V; exact Hq|]. rewrite (np_convolve_spec T L), line_length.
    destruct H as [-> | ->]; cbn [length Nat.eqb orb]; [reflexivity|]. rewrite orb_true_r. reflexivity.
Qed.
(** convolve([1, 2, 3], [[1, 0], [0, 1]], axis=0) *)
Example C96_example : convolve int_dtype (Arr [3] [1; 2; 3]%Z) (Arr [2; 2] [1; 0; 0; 1]%Z) 0 Full = Some (Arr [4; 2] [1; 0; 2; 1; 3; 2; 0; 3]%Z) /\
  convolve int_dtype (Arr [4] [1; 2; 3; 4]%Z) (Arr [3] [1; 1; 1]%Z) (-1) Same = Some (Arr [4] [3; 6; 9; 7]%Z) /\
  convolve int_dtype (Arr [4] [1; 2; 3; 4]%Z) (Arr [3] [1; 1; 1]%Z) (-1) Valid = Some (Arr [2] [6; 9]%Z).
Proof. split; [|split]; reflexivity. Qed.
