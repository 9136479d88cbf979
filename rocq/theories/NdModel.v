(** Operators on arrays with any number of dimensions: lop/util.py (apply_along_axis),
    the array branches of lop/basic.py, lop/dot.py, lop/fft.py, lop/reshape.py and
    lop/conv.py (convolveND).

    An array is a function of the list of indices together with its shape.  None
    models a raised exception. *)
From Coq Require Import List Arith Bool ZArith Reals.
From Verif Require Import Scalar Vec LopModel FourierModel NdSpec.
Import ListNotations.

(** numpy's canonical axis: negative axes count from the end *)
Definition norm_axis (ndim : nat) (axis : Z) : option nat :=
  if ((0 <=? axis) && (axis <? Z.of_nat ndim))%Z then Some (Z.to_nat axis)
  else if ((- Z.of_nat ndim <=? axis) && (axis <? 0))%Z then Some (Z.to_nat (Z.of_nat ndim + axis))
  else None.

Section Model.
  Variable K : scalar.
  Local Open Scope scal_scope.
  Notation vec := (list K).
  Notation arr := (arr K).

  (** jnp.apply_along_axis(f, axis, x) *)
  Definition jnp_along (f : vec -> vec) (axis : Z) (shape : list nat) (x : arr) : option arr :=
    match norm_axis (length shape) axis with
    | None => None
    | Some a => Some (fun p => nth (nth a p 0%nat) (f (tab (nth a shape 0%nat) (fun k => x (upd a k p)))) s0)
    end.
  (** lop/util.py:103-118, one of the two functions returned *)
  Definition apply_along_axis (f1d : vec -> vec) (axis : Z) (shape : list nat) (x : arr) : option arr :=
    if (length shape =? 1)%nat then Some (fun p => nth (nth 0 p 0%nat) (f1d (tab (nth 0 shape 0%nat) (fun k => x [k]))) s0)
    else jnp_along f1d axis shape x.

  (** A @ X and X @ B for 2-D arrays, k the common dimension *)
  Definition matmul (k : nat) (X Y : arr) : arr :=
    fun p => Sum k (fun l => X [nth 0 p 0%nat; l] * Y [l; nth 1 p 0%nat]).
  (** lop/basic.py:84-97, matrix(A, axis).times *)
  Definition matrix_times (n : nat) (A : list vec) (axis : Z) (shape : list nat) (x : arr) : option arr :=
    let A2 : arr := fun p => nth (nth 1 p 0%nat) (nth (nth 0 p 0%nat) A []) s0 in
    match shape with
    | [_] => Some (fun p => nth (nth 0 p 0%nat) (matvec A (tab (nth 0 shape 0%nat) (fun k => x [k]))) s0)
    | [_; _] => if (axis =? 0)%Z then Some (matmul n A2 x)
                else Some (matmul n x (fun p => A2 (rev p)))
    | _ => jnp_along (matvec A) axis shape x
    end.
  (** lop/basic.py:99-110, matrix(A, axis).trans; _hermitian conjugates and transposes *)
  Definition matrix_trans (m n : nat) (A : list vec) (axis : Z) (shape : list nat) (x : arr) : option arr :=
    let A2 : arr := fun p => nth (nth 1 p 0%nat) (nth (nth 0 p 0%nat) A []) s0 in
    let trans1d := fun x => vstar (vecmat n (vstar x) A) in
    match shape with
    | [_] => Some (fun p => nth (nth 0 p 0%nat) (trans1d (tab (nth 0 shape 0%nat) (fun k => x [k]))) s0)
    | [_; _] => if (axis =? 0)%Z then Some (matmul m (fun p => star (A2 (rev p))) x)
                else Some (matmul m x (fun p => star (A2 p)))
    | _ => jnp_along trans1d axis shape x
    end.

  (** lop/basic.py:294-304, restriction(n, I, axis).times *)
  Definition restriction_times (I : list nat) (axis : Z) (shape : list nat) (x : arr) : option arr :=
    match shape with
    | [_] => Some (fun p => x [nth (nth 0 p 0%nat) I 0%nat])
    | [_; _] => if (axis =? 0)%Z then Some (fun p => x [nth (nth 0 p 0%nat) I 0%nat; nth 1 p 0%nat])
                else Some (fun p => x [nth 0 p 0%nat; nth (nth 1 p 0%nat) I 0%nat])
    | _ => jnp_along (fun v => gather v I) axis shape x
    end.
  (** lop/basic.py:306-310, restriction(n, I, axis).trans *)
  Definition restriction_trans (n : nat) (I : list nat) (axis : Z) (shape : list nat) (x : arr) : option arr :=
    apply_along_axis (fun v => scatter I v (vzero n)) axis shape x.

  (** lop/dot.py:46-53, dot(v, axis).times for a vector v; the assertion comes first *)
  Definition dot_times (v : vec) (axis : Z) (shape : list nat) (x : arr) : option arr :=
    if list_eq_dec Nat.eq_dec shape [length v]
    then Some (fun p => nth (nth 0 p 0%nat) [sre (inner v (tab (length v) (fun k => x [k])))] s0)
    else None.

  (** row-major position of an index, and back *)
  Fixpoint ravel (shape p : list nat) : nat :=
    match shape, p with
    | n :: shape, i :: p => (i * fold_right Nat.mul 1 shape + ravel shape p)%nat
    | _, _ => 0%nat
    end.
  Fixpoint unravel (shape : list nat) (k : nat) : list nat :=
    match shape with
    | [] => []
    | n :: shape => let s := fold_right Nat.mul 1%nat shape in (k / s)%nat :: unravel shape (k mod s)
    end.
  Definition size (shape : list nat) : nat := fold_right Nat.mul 1%nat shape.
  (** jnp.reshape(x, out, order): 'C' reads and writes row-major, 'F' column-major;
      JAX does not implement 'A' *)
  Inductive order := OC | OF | OA.
  Definition jnp_reshape (o : order) (inp out : list nat) (x : arr) : option arr :=
    if (size inp =? size out)%nat then
      match o with
      | OC => Some (fun p => x (unravel inp (ravel out p)))
      | OF => Some (fun p => x (rev (unravel (rev inp) (ravel (rev out) (rev p)))))
      | OA => None
      end
    else None.
  (** lop/reshape.py:21-41: the two functions of the operator, None when the assertion
      on the sizes fails *)
  Definition op_reshape (o : order) (inp out : list nat) : option ((arr -> option arr) * (arr -> option arr)) :=
    if (size inp =? size out)%nat then Some (jnp_reshape o inp out, jnp_reshape o out inp) else None.
  (** lop/reshape.py:44-58 *)
  Definition op_arr2vec (shape : list nat) : (arr -> option arr) * (arr -> option arr) :=
    (jnp_reshape OC shape [size shape], jnp_reshape OC [size shape] shape).

  (** lop/conv.py:89-167, convolveND *)
  (** entries of a list of integers of length d set at the given axes, conv.py:109-123, 131-132 *)
  Definition at_axes (d dflt : nat) (axes vals : list nat) : list nat :=
    fold_left (fun l av => upd (fst av) (snd av) l) (combine axes vals) (repeat dflt d).
  Definition zip_add (p q : list nat) : list nat := zipw Nat.add p q.
  Definition flip_idx (s q : list nat) : list nat := zipw (fun s q => (s - 1 - q)%nat) s q.
  (** the position of a padded array read at p + q, padding (s - 1, s - 1) on every axis *)
  Fixpoint padded (shape hs : list nat) (x : arr) (p q : list nat) : K :=
    match shape, hs, p, q with
    | n :: shape, s :: hs, i :: p, j :: q =>
        if ((s - 1 <=? i + j) && (i + j - (s - 1) <? n))%nat then padded shape hs (fun r => x ((i + j - (s - 1))%nat :: r)) p q else s0
    | _, _, _, _ => x []
    end.
  (** lax.conv_general_dilated with unit strides and that padding, conv.py:135-136, 149-151 *)
  Definition xcorr_nd (shape hs : list nat) (f x : arr) (p : list nat) : K :=
    ndsum hs (fun q => f q * padded shape hs x p q).
  Record convnd := ConvND { cn_hs : list nat; cn_h : arr; cn_f : list nat; cn_a : list nat }.
  (** conv.py:92-133: the extended filter with its shape and the starts of the slices.  The
      slices have the length of the data, as they do in the code when both starts are less
      than the size of the (extended) filter along their axis; outside that (where the code
      slices past the end or from a negative start) this is not what the code does *)
  Definition conv_setup (shape hshape : list nat) (h : arr) (offset axes : list nat) : option convnd :=
    let d := length shape in
    if (length offset =? length hshape)%nat then
      let f := at_axes d 0 axes offset in
      let a := at_axes d 0 axes (zipw (fun h o => (h - 1 - o)%nat) hshape offset) in
      if (d =? length hshape)%nat then Some (ConvND hshape h f a)
      else let h_dims := at_axes d 1 axes hshape in
           match jnp_reshape OC hshape h_dims h with Some h => Some (ConvND h_dims h f a) | None => None end
    else None.
  (** conv.py:89-108 with the default arguments *)
  Definition convolve_nd (shape hshape : list nat) (h : arr) (offset axes : option (list nat)) : option convnd :=
    conv_setup shape hshape h
      (match offset with None => repeat 0%nat (length hshape) | Some o => o end)
      (match axes with None => seq 0 (length hshape) | Some a => a end).
  (** conv.py:79-86, convolve2D *)
  Definition convolve_2d (shape hshape : list nat) (h : arr) (offset axes : option (list nat)) : option convnd :=
    if (length hshape =? 2)%nat then convolve_nd shape hshape h offset axes else None.
  (** conv.py:138-153 *)
  Definition conv_times (shape : list nat) (c : convnd) (x : arr) : arr :=
    fun p => xcorr_nd shape (cn_hs c) (fun q => cn_h c (flip_idx (cn_hs c) q)) x (zip_add (cn_f c) p).
  (** conv.py:155-165, with the filter as it is (not conjugated) *)
  Definition conv_trans (shape : list nat) (c : convnd) (x : arr) : arr :=
    fun p => xcorr_nd shape (cn_hs c) (cn_h c) x (zip_add (cn_a c) p).
End Model.
Arguments jnp_along {K}. Arguments apply_along_axis {K}. Arguments matmul {K}. Arguments matrix_times {K}. Arguments matrix_trans {K}.
Arguments restriction_times {K}. Arguments restriction_trans {K}. Arguments dot_times {K}. Arguments jnp_reshape {K}. Arguments op_reshape {K}.
Arguments op_arr2vec {K}. Arguments padded {K}. Arguments xcorr_nd {K}. Arguments cn_hs {K}. Arguments cn_h {K}. Arguments cn_f {K}. Arguments cn_a {K}.
Arguments conv_setup {K}. Arguments convolve_nd {K}. Arguments convolve_2d {K}. Arguments conv_times {K}. Arguments conv_trans {K}.

(** lop/fft.py:36-53 on arrays, mode c2c: shape and entries.  fft pads or crops the axis
    to n; trans crops axis 0. *)
Definition fft_times (m n : nat) (axis : Z) (shape : list nat) (x : arr Cs) : option (list nat * arr Cs) :=
  match norm_axis (length shape) axis with
  | None => None
  | Some a => match jnp_along (fun v : list Cs => dft n v) axis shape x with Some y => Some (upd a n shape, y) | None => None end
  end.
Definition fft_trans (m n : nat) (axis : Z) (shape : list nat) (w : arr Cs) : option (list nat * arr Cs) :=
  match norm_axis (length shape) axis with
  | None => None
  | Some a =>
    let s := upd a n shape in
    match jnp_along (fun v : list Cs => @vscale Cs (ofR (INR n)) (idft n v)) axis shape w with
    | Some x => Some (upd 0 (Nat.min m (nth 0 s 0%nat)) s, x)
    | None => None
    end
  end.
