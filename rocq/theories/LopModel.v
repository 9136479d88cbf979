(** Model of src/cr/sparse/_src/lop: 1-D linear operators.

    Simplifications common to the file: arrays are lists of exact scalars; only
    1-D inputs are modelled (apply_along_axis / vmap over extra axes applies the
    1-D function to each column, lop/util.py:103-118); dtypes are not modelled. *)
From Coq Require Import List Arith Bool Reals.
From Verif Require Import Scalar Vec.
Import ListNotations.

Section Model.
  Variable K : scalar.
  Local Open Scope scal_scope.
  Notation vec := (list K).
  Notation "x @ i" := (nth i x s0) (at level 5, i at level 4).

  (** lop/lop.py:41-76 class Operator(NamedTuple).  shape = (om, on). *)
  Record operator := Op {
    times : vec -> vec;
    trans : vec -> vec;
    om : nat;
    on : nat;
    linear : bool;
    jit_safe : bool;
    matrix_safe : bool;
    real : bool }.

  (** constructor call with default flags, lop/lop.py:69-75 *)
  Definition mkop (f g : vec -> vec) (m n : nat) : operator := Op f g m n true true true true.

  (** ** jax.numpy functions used by the operators *)

  (** jnp.diff(x) : out[i] = x[i+1] - x[i] *)
  Definition jdiff (x : vec) : vec := zipw (fun a b => b - a) x (tl x).
  (** jnp.cumsum *)
  Fixpoint cumsum_from (acc : K) (x : vec) : vec :=
    match x with [] => [] | a :: r => (acc + a) :: cumsum_from (acc + a) r end.
  Definition cumsum (x : vec) : vec := cumsum_from s0 x.
  (** jnp.pad(x, (b, a)) with zeros *)
  Definition jpad (b a : nat) (x : vec) : vec := vzero b ++ x ++ vzero a.
  (** x[s : s+l] *)
  Definition slice (s l : nat) (x : vec) : vec := firstn l (skipn s x).
  (** x[I] *)
  Definition gather (x : vec) (I : list nat) : vec := map (fun i => x@i) I.
  (** x.at[i].set(v) *)
  Fixpoint set_at (i : nat) (v : K) (x : vec) : vec :=
    match x, i with
    | [], _ => []
    | a :: r, 0 => v :: r
    | a :: r, S k => a :: set_at k v r
    end.
  (** x.at[I].set(vs): for repeated indices the last write wins (XLA CPU
      behaviour; JAX leaves the order unspecified) *)
  Definition scatter (I : list nat) (vs x : vec) : vec :=
    fold_left (fun acc p => set_at (fst p) (snd p) acc) (combine I vs) x.
  (** y.at[s + arange(len v)].add(v) *)
  Definition add_slice (s : nat) (v y : vec) : vec :=
    firstn s y ++ vadd (firstn (length v) (skipn s y)) v ++ skipn (s + length v) y.
  (** x.at[-1].set(0) *)
  Definition zero_last (x : vec) : vec := set_at (length x - 1) s0 x.
  (** x.at[0].set(0) *)
  Definition zero_first (x : vec) : vec := set_at 0 s0 x.
  (** x[-1], x[0] for nonempty x *)
  Definition jlast (x : vec) : K := x@(length x - 1).
  Definition jfirst (x : vec) : K := x@0.
  (** jnp.convolve(x, h, 'full'): out[k] = sum_j x[j] h[k-j] *)
  Definition conv_full (x h : vec) : vec :=
    tab (length x + length h - 1)
      (fun k => Sum (length x) (fun j => if j <=? k then x@j * h@(k - j) else s0)).
  (** jnp.convolve(x, h, 'same') for len(h) <= len(x): jax pads with
      (m//2, m - m//2 - 1), i.e. the slice of the full convolution that starts
      at m - 1 - m//2 and has length len(x).  For len(h) > len(x) jax swaps the
      arguments, so that the output has length len(h). *)
  Definition conv_same (x h : vec) : vec :=
    if length x <? length h
    then slice (length x - 1 - length x / 2) (length h) (conv_full h x)
    else slice (length h - 1 - length h / 2) (length x) (conv_full x h).
  (** jnp.convolve(x, h, 'valid') for len(x) >= len(h) *)
  Definition conv_valid (x h : vec) : vec :=
    slice (length h - 1) (length x + 1 - length h) (conv_full x h).
  (** lax.conv_general_dilated with unit stride and padding (m-1, m-1): a
      cross-correlation of the padded signal with the filter *)
  Definition xcorr_padded (x f : vec) : vec :=
    let m := length f in
    let xp := jpad (m - 1) (m - 1) x in
    tab (length x + m - 1) (fun k => Sum m (fun i => f@i * xp@(k + i))).

  (** ** matrices as lists of rows *)
  (** A @ x *)
  Definition matvec (A : list vec) (x : vec) : vec := map (fun r => dotu r x) A.
  (** x @ A, n the number of columns *)
  Definition vecmat (n : nat) (y : vec) (A : list vec) : vec :=
    fold_right vadd (vzero n) (zipw vscale y A).

  (** ** lop/basic.py *)
  (** basic.py:26-54 *)
  Definition op_real_matrix (m n : nat) (A : list vec) : operator :=
    mkop (matvec A) (fun x => vecmat n x A) m n.
  (** basic.py:56-112 (1-D branch); isreal = jnp.isrealobj(A) *)
  Definition op_matrix (m n : nat) (A : list vec) (isreal : bool) : operator :=
    Op (matvec A) (fun x => vstar (vecmat n (vstar x) A)) m n true true true isreal.
  (** basic.py:177-193 *)
  Definition op_diagonal (d : vec) : operator :=
    mkop (fun x => vmul d x) (fun x => vmul (vstar d) x) (length d) (length d).
  (** basic.py:196-211 *)
  Definition op_scalar_mult (alpha : K) (n : nat) : operator :=
    mkop (vscale alpha) (vscale (star alpha)) n n.
  (** basic.py:214-230 *)
  Definition op_zero (n m : nat) : operator :=
    mkop (fun _ => vzero m) (fun _ => vzero n) m n.
  (** basic.py:232-236 *)
  Definition op_flipud (n : nat) : operator := mkop (@rev K) (@rev K) n n.
  (** basic.py:239-243 *)
  Definition op_sum (n : nat) : operator :=
    mkop (fun x => [lsum x]) (fun x => flat_map (fun a => repeat a n) x) 1 n.
  (** basic.py:245-258 *)
  Definition op_pad_zeros (n before after : nat) : operator :=
    Op (jpad before after) (slice before n) (before + n + after) n true true false true.
  (** basic.py:261-270 *)
  Definition op_real (n : nat) : operator :=
    Op (map sre) (map sre) n n false true true true.
  (** basic.py:273-278.  x[n-1::-1] is the reversed first half. *)
  Definition op_symmetrize (n : nat) : operator :=
    mkop (fun x => rev x ++ x) (fun x => vadd (skipn n x) (rev (firstn n x))) (2 * n) n.
  (** basic.py:281-312 (1-D branch) *)
  Definition op_restriction (n : nat) (I : list nat) : operator :=
    mkop (fun x => gather x I) (fun x => scatter I x (vzero n)) (length I) n.
  (** basic.py:333-334 : w = sqrt(arange(n, 0, -1)), wi = 1/w *)
  Definition hw (n : nat) : vec := tab n (fun i => ofR (sqrt (INR (n - i)))).
  Definition hwi (n : nat) : vec := map (fun a => s1 / a) (hw n).
  (** basic.py:338-341 trans_u: y = cumsum(x); ym = y[-1]; insert(ym - y[:-1], 0, ym) *)
  Definition heaviside_trans_u (x : vec) : vec :=
    let y := cumsum x in
    let ym := jlast y in
    ym :: map (fun a => ym - a) (firstn (length y - 1) y).
  (** basic.py:314-352 *)
  Definition op_heaviside (n : nat) (normalized : bool) : operator :=
    if normalized then
      mkop (fun x => cumsum (vmul x (hwi n))) (fun x => vmul (heaviside_trans_u x) (hwi n)) n n
    else mkop cumsum heaviside_trans_u n n.
  (** basic.py:354-355 *)
  Definition op_cumsum (n : nat) : operator := op_heaviside n false.
  (** basic.py:357-383.  prepend=0 / append=0 concatenate a zero. *)
  Definition op_inv_heaviside (n : nat) (normalized : bool) : operator :=
    if normalized then
      mkop (fun x => vmul (jdiff (s0 :: x)) (hw n)) (fun x => vopp (jdiff (vmul x (hw n) ++ [s0]))) n n
    else mkop (fun x => jdiff (s0 :: x)) (fun x => vopp (jdiff (x ++ [s0]))) n n.
  (** basic.py:385-386 *)
  Definition op_diff (n : nat) : operator := op_inv_heaviside n false.

  (** ** lop/identity.py:78-95 *)
  Definition op_identity (n m : nat) : operator :=
    if n =? m then mkop (fun x => x) (fun x => x) m n
    else if m <? n then mkop (firstn m) (jpad 0 (n - m)) m n
    else mkop (jpad 0 (m - n)) (firstn n) m n.

  (** ** lop/dot.py:23-64, 1-D v.  arr_rdot(v,x) = Re <v,x>; the adjoint acts on
      real scalars only (assert isrealobj), v * x broadcasts the 1-vector x. *)
  Definition op_dot (v : vec) (adj : bool) : operator :=
    let f := fun x => [sre (inner v x)] in
    let g := fun y => vscale (jfirst y) v in
    if adj then mkop g f (length v) 1 else mkop f g 1 (length v).

  (** ** lop/lop.py: operator algebra *)
  (** lop.py:178-185.  None models the raised exception.  jax.jit does not
      change the computed function; jit_safe is not passed on (default True). *)
  Definition op_jit (A : operator) : option operator :=
    if jit_safe A
    then Some (Op (times A) (trans A) (om A) (on A) (linear A) true (matrix_safe A) (real A))
    else None.
  (** lop.py:197-208 *)
  Definition op_neg (A : operator) : operator :=
    Op (fun x => vopp (times A x)) (fun x => vopp (trans A x)) (om A) (on A)
       true (jit_safe A) (matrix_safe A) (real A).
  (** lop.py:210-224; py_complex = isinstance(alpha, complex) *)
  Definition op_scale (A : operator) (alpha : K) (py_complex : bool) : operator :=
    Op (fun x => vscale alpha (times A x)) (fun x => vscale (star alpha) (trans A x)) (om A) (on A)
       true (jit_safe A) (matrix_safe A) (real A && negb py_complex).
  (** lop.py:226-251 hermitian, adjoint *)
  Definition op_adjoint (A : operator) : operator :=
    Op (trans A) (times A) (on A) (om A) true (jit_safe A) (matrix_safe A) (real A).
  (** lop.py:254-263; _hermitian (impl.py:18-21) of a vector is the conjugate *)
  Definition op_transpose (A : operator) : operator :=
    if real A
    then Op (trans A) (times A) (on A) (om A) true (jit_safe A) (matrix_safe A) (real A)
    else Op (fun x => vstar (trans A (vstar x))) (fun x => vstar (times A (vstar x))) (on A) (om A)
            true (jit_safe A) (matrix_safe A) (real A).
  (** lop.py:265-273 apply_n: loop with state (x, c) while c < n, written as
      recursion on the number of remaining iterations *)
  Fixpoint apply_n (f : vec -> vec) (n : nat) (x : vec) : vec :=
    match n with 0 => x | S k => apply_n f k (f x) end.
  (** lop.py:277-283; assert m == n *)
  Definition op_power (A : operator) (p : nat) : option operator :=
    if om A =? on A
    then Some (Op (apply_n (times A) p) (apply_n (trans A) p) (om A) (on A)
                  true (jit_safe A) (matrix_safe A) (real A))
    else None.
  (** lop.py:285-325.  jnp.empty is modelled as zeros. *)
  Definition op_partial (A : operator) (picks : list nat) (perm : option (list nat)) : operator :=
    match perm with
    | None =>
        Op (fun x => gather (times A x) picks)
           (fun x => trans A (scatter picks x (vzero (om A))))
           (length picks) (on A) true (jit_safe A) (matrix_safe A) (real A)
    | Some pi =>
        Op (fun x => gather (times A (gather x pi)) picks)
           (fun x => let y := trans A (scatter picks x (vzero (om A))) in
                     scatter pi y (vzero (length y)))
           (length picks) (on A) true (jit_safe A) (matrix_safe A) (real A)
    end.
  (** lop.py:332-343 *)
  Definition op_add (A B : operator) : option operator :=
    if (om A =? om B) && (on A =? on B)
    then Some (Op (fun x => vadd (times A x) (times B x)) (fun x => vadd (trans A x) (trans B x))
                  (om A) (on A) true (jit_safe A && jit_safe B) (matrix_safe A && matrix_safe B)
                  (real A && real B))
    else None.
  (** lop.py:346-357 *)
  Definition op_sub (A B : operator) : option operator :=
    if (om A =? om B) && (on A =? on B)
    then Some (Op (fun x => vsub (times A x) (times B x)) (fun x => vsub (trans A x) (trans B x))
                  (om A) (on A) true (jit_safe A && jit_safe B) (matrix_safe A && matrix_safe B)
                  (real A && real B))
    else None.
  (** lop.py:360-373 with ignore_compatibility=False, shape=None; jit_safe and
      matrix_safe are computed but not passed on (default True) *)
  Definition op_compose (A B : operator) : option operator :=
    if on A =? om B
    then Some (Op (fun x => times A (times B x)) (fun x => trans B (trans A x))
                  (om A) (on B) true true true (real A && real B))
    else None.
  (** lop.py:376-388 *)
  Definition op_hcat (A B : operator) : option operator :=
    if om A =? om B
    then Some (Op (fun x => vadd (times A (firstn (on A) x)) (times B (skipn (on A) x)))
                  (fun x => trans A x ++ trans B x)
                  (om A) (on A + on B) true (jit_safe A && jit_safe B)
                  (matrix_safe A && matrix_safe B) (real A && real B))
    else None.
  (** lop.py:392-398 *)
  Definition op_gram (A : operator) : operator :=
    Op (fun x => trans A (times A x)) (fun x => trans A (times A x)) (on A) (on A)
       true (jit_safe A) (matrix_safe A) (real A).
  (** lop.py:400-406 *)
  Definition op_frame (A : operator) : operator :=
    Op (fun x => times A (trans A x)) (fun x => times A (trans A x)) (om A) (om A)
       true (jit_safe A) (matrix_safe A) (real A).
  (** lop.py:22-26 column *)
  Definition op_column (A : operator) (i : nat) : vec := times A (set_at i s1 (vzero (on A))).

  (** ** lop/block_diag.py:121-142.  The loops over in_slices/out_slices
      consume consecutive slices of x. *)
  Fixpoint bd_times (ops : list operator) (x : vec) : vec :=
    match ops with
    | [] => []
    | A :: r => times A (firstn (on A) x) ++ bd_times r (skipn (on A) x)
    end.
  Fixpoint bd_trans (ops : list operator) (y : vec) : vec :=
    match ops with
    | [] => []
    | A :: r => trans A (firstn (om A) y) ++ bd_trans r (skipn (om A) y)
    end.
  Definition op_block_diag (ops : list operator) : option operator :=
    if 2 <=? length ops
    then Some (mkop (bd_times ops) (bd_trans ops)
                    (list_sum (map om ops)) (list_sum (map on ops)))
    else None.

  (** ** lop/calculus.py *)
  Definition vdivs (x : vec) (c : K) : vec := map (fun a => a / c) x.
  (** calculus.py:25-27 *)
  Definition der_fwd (x : vec) (dx : K) : vec := vdivs (jdiff (x ++ [jlast x])) dx.
  (** calculus.py:29-32 *)
  Definition der_fwd_adj (x : vec) (dx : K) : vec :=
    vdivs (jdiff (s0 :: vopp (zero_last x))) dx.
  (** calculus.py:34-36 *)
  Definition der_bwd (x : vec) (dx : K) : vec := vdivs (jdiff (jfirst x :: x)) dx.
  (** calculus.py:38-41 *)
  Definition der_bwd_adj (x : vec) (dx : K) : vec :=
    vdivs (jdiff (vopp (zero_first x) ++ [s0])) dx.
  Definition half : K := ofR (1 / 2)%R.
  (** calculus.py:43-45; x[2:] and x[:-2] *)
  Definition der_cen (x : vec) (dx : K) : vec :=
    jpad 1 1 (vdivs (vsub (vscale half (skipn 2 x)) (vscale half (firstn (length x - 2) x))) dx).
  (** calculus.py:47-51: dx is not used *)
  Definition der_cen_adj (x : vec) (dx : K) : vec :=
    let mid := slice 1 (length x - 2) x in
    add_slice 2 (vscale half mid)
      (add_slice 0 (vscale (- half) mid) (vzero (length x))).
  Inductive der_kind := Forward | Backward | Centered.
  (** calculus.py:54-68 *)
  Definition op_first_derivative (n : nat) (dx : K) (k : der_kind) : operator :=
    match k with
    | Forward => mkop (fun x => der_fwd x dx) (fun x => der_fwd_adj x dx) n n
    | Backward => mkop (fun x => der_bwd x dx) (fun x => der_bwd_adj x dx) n n
    | Centered => mkop (fun x => der_cen x dx) (fun x => der_cen_adj x dx) n n
    end.
  (** calculus.py:72 *)
  Definition der2_filter (dx : K) : vec :=
    [s1 / dx / dx; ofR (-2)%R / dx / dx; s1 / dx / dx].
  (** calculus.py:71-75 *)
  Definition op_second_derivative (n : nat) (dx : K) : operator :=
    mkop (fun x => jpad 1 1 (conv_valid x (der2_filter dx)))
         (fun x => conv_full (slice 1 (length x - 2) x) (der2_filter dx)) n n.

  (** ** lop/tv.py *)
  Inductive tv_kind := TvRegular | TvDirichlet | TvCircular.
  (** tv.py:29-31, 38-40, 46-48 *)
  Definition tv_fwd (k : tv_kind) (x : vec) : vec :=
    match k with
    | TvRegular => jdiff (x ++ [jlast x])
    | TvDirichlet => jdiff (x ++ [s0])
    | TvCircular => jdiff (x ++ [jfirst x])
    end.
  (** tv.py:33-36, 42-44, 50-52; cnb.vec_shift_right(x) = [0, x0, .., x_{n-2}],
      cnb.vec_rotate_right(x) = [x_{n-1}, x0, .., x_{n-2}] *)
  Definition tv_adj (k : tv_kind) (x : vec) : vec :=
    match k with
    | TvRegular => jdiff (s0 :: vopp (zero_last x))
    | TvDirichlet => vsub (firstn (length x) (s0 :: x)) x
    | TvCircular => vsub (firstn (length x) (jlast x :: x)) x
    end.
  (** tv.py:54-83 *)
  Definition op_tv (n : nat) (k : tv_kind) : operator := mkop (tv_fwd k) (tv_adj k) n n.

  (** ** lop/conv.py:29-77 *)
  Definition op_convolve (n : nat) (h : vec) (offset : nat) : option operator :=
    let m := length h in
    if (0 <? n) && (offset <? m) then
      Some (mkop (fun x => slice offset n (xcorr_padded x (rev h)))
                 (fun x => slice (m - 1 - offset) n (xcorr_padded x (vstar h))) n n)
    else None.

  (** ** lop/filters.py *)
  (** filters.py:21-29 *)
  Definition op_running_average (n len : nat) : operator :=
    let f := repeat (s1 / ofR (INR len)) len in
    mkop (fun x => conv_same x f) (fun x => slice (len / 2) n (conv_full x f)) n n.
  (** filters.py:32-41 *)
  Definition op_fir_filter (n : nat) (h : vec) : operator :=
    let m := length h in
    mkop (fun x => conv_same x h)
         (fun x => slice (m / 2) n (conv_full x (vstar (rev h)))) n n.

  (** ** lop/windowed_op.py:22-83 *)
  (** math.ceil((m - w) / offset) + 1, at least 1 *)
  Definition win_blocks (m w offset : nat) : nat :=
    if m <=? w then 1 else (m - w + offset - 1) / offset + 1.
  (** windowed_op.py:64-70: fori_loop adding T.times(window i) at i*offset *)
  Definition win_times (T : operator) (m offset nb : nat) (x : vec) : vec :=
    let yl := (om T + (nb - 1) * offset)%nat in
    firstn m
      (fold_left (fun y i => add_slice (i * offset) (times T (slice (i * on T) (on T) x)) y)
                 (seq 0 nb) (vzero yl)).
  (** windowed_op.py:73-79: window i of the zero-padded x, transformed, placed at i*tn *)
  Definition win_trans (T : operator) (m offset nb : nat) (x : vec) : vec :=
    let yl := (om T + (nb - 1) * offset)%nat in
    let xp := x ++ vzero (om T + yl - m) in
    flat_map (fun i => trans T (slice (i * offset) (om T) xp)) (seq 0 nb).
  (** assert overlap < w *)
  Definition op_windowed (m : nat) (T : operator) (overlap : nat) : option operator :=
    let w := om T in
    if overlap <? w then
      let offset := (w - overlap)%nat in
      let nb := win_blocks m w offset in
      Some (Op (win_times T m offset nb) (win_trans T m offset nb) m (nb * on T)
               true true true (real T))
    else None.

  (** ** lop/util.py *)
  (** util.py:21-30: the list of columns A e_i; None models the exception *)
  Definition to_matrix_cols (A : operator) : option (list vec) :=
    if linear A then Some (map (fun i => times A (vbasis (on A) i)) (seq 0 (on A))) else None.
  (** util.py:32-41 *)
  Definition to_adjoint_matrix_cols (A : operator) : option (list vec) :=
    if linear A then Some (map (fun i => trans A (vbasis (om A) i)) (seq 0 (om A))) else None.
End Model.

Arguments times {K}. Arguments trans {K}. Arguments om {K}. Arguments on {K}.
Arguments linear {K}. Arguments jit_safe {K}. Arguments matrix_safe {K}. Arguments real {K}.
Arguments Op {K}. Arguments mkop {K}.
Arguments jdiff {K}. Arguments cumsum_from {K}. Arguments cumsum {K}. Arguments jpad {K}.
Arguments slice {K}. Arguments gather {K}. Arguments set_at {K}. Arguments scatter {K}.
Arguments add_slice {K}. Arguments zero_last {K}. Arguments zero_first {K}.
Arguments jlast {K}. Arguments jfirst {K}. Arguments conv_full {K}. Arguments conv_same {K}.
Arguments conv_valid {K}. Arguments xcorr_padded {K}. Arguments matvec {K}. Arguments vecmat {K}.
Arguments op_real_matrix {K}. Arguments op_matrix {K}. Arguments op_diagonal {K}.
Arguments op_scalar_mult {K}. Arguments op_zero {K}. Arguments op_flipud {K}. Arguments op_sum {K}.
Arguments op_pad_zeros {K}. Arguments op_real {K}. Arguments op_symmetrize {K}.
Arguments op_restriction {K}. Arguments hw {K}. Arguments hwi {K}. Arguments heaviside_trans_u {K}.
Arguments op_heaviside {K}. Arguments op_cumsum {K}. Arguments op_inv_heaviside {K}.
Arguments op_diff {K}. Arguments op_identity {K}. Arguments op_dot {K}. Arguments op_jit {K}.
Arguments op_neg {K}. Arguments op_scale {K}. Arguments op_adjoint {K}. Arguments op_transpose {K}.
Arguments apply_n {K}. Arguments op_power {K}. Arguments op_partial {K}. Arguments op_add {K}.
Arguments op_sub {K}. Arguments op_compose {K}. Arguments op_hcat {K}. Arguments op_gram {K}.
Arguments op_frame {K}. Arguments op_column {K}. Arguments bd_times {K}. Arguments bd_trans {K}.
Arguments op_block_diag {K}. Arguments vdivs {K}. Arguments der_fwd {K}. Arguments der_fwd_adj {K}.
Arguments der_bwd {K}. Arguments der_bwd_adj {K}. Arguments half {K}. Arguments der_cen {K}.
Arguments der_cen_adj {K}. Arguments op_first_derivative {K}. Arguments der2_filter {K}.
Arguments op_second_derivative {K}. Arguments tv_fwd {K}. Arguments tv_adj {K}. Arguments op_tv {K}.
Arguments op_convolve {K}. Arguments op_running_average {K}. Arguments op_fir_filter {K}.
Arguments win_times {K}. Arguments win_trans {K}. Arguments op_windowed {K}.
Arguments to_matrix_cols {K}. Arguments to_adjoint_matrix_cols {K}.
