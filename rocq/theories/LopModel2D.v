(** Model of the two-dimensional operators: lop/tv.py:85-136 and
    lop/conv.py:79-167 restricted to 2-D data with a 2-D filter.
    A 2-D array is the list of its rows. *)
From Coq Require Import List Arith Bool Reals.
From Verif Require Import Scalar Vec LopModel.
Import ListNotations.

Section Model2.
  Variable K : scalar.
  Local Open Scope scal_scope.
  Notation vec := (list K).
  Notation arr := (list (list K)).
  Definition get2 (X : arr) (i j : nat) : K := nth j (nth i X []) s0.
  Definition tab2 (M N : nat) (f : nat -> nat -> K) : arr := tab M (fun i => tab N (f i)).

  (** jnp.apply_along_axis(f, 1, X): f on every row *)
  Definition along_rows (f : vec -> vec) (X : arr) : arr := map f X.
  (** jnp.apply_along_axis(f, 0, X): f on every column of an M x N array, for
      f preserving the length *)
  Definition along_cols (M N : nat) (f : vec -> vec) (X : arr) : arr :=
    let cols := tab N (fun j => f (tab M (fun i => get2 X i j))) in
    tab2 M N (fun i j => nth i (nth j cols []) s0).

  (** lax.conv_general_dilated on a 2-D array with unit strides and padding
      (s-1, s-1) on both axes, entry (k,l); conv.py:135-136,149-151 *)
  Definition padget (X : arr) (p q a b : nat) : K :=
    if (a <? p) || (b <? q) then s0 else get2 X (a - p) (b - q).
  Definition xcorr2 (mh mw : nat) (f X : arr) (k l : nat) : K :=
    Sum mh (fun i => Sum mw (fun j => get2 f i j * padget X (mh - 1) (mw - 1) (k + i) (l + j))).
  (** conv.py:138 h[::-1, ::-1] *)
  Definition flip2 (h : arr) : arr := rev (map (@rev K) h).
  (** conv.py:143-153 with f_slices (121) *)
  Definition conv2_times (M N : nat) (h : arr) (mh mw o0 o1 : nat) (X : arr) : arr :=
    tab2 M N (fun k l => xcorr2 mh mw (flip2 h) X (o0 + k) (o1 + l)).
  (** conv.py:155-165 with a_slices (119,123); h_corr = h (line 141), not conjugated *)
  Definition conv2_trans (M N : nat) (h : arr) (mh mw o0 o1 : nat) (X : arr) : arr :=
    tab2 M N (fun k l => xcorr2 mh mw h X (mh - 1 - o0 + k) (mw - 1 - o1 + l)).

  (** inner product of 2-D arrays: jnp.vdot flattens *)
  Definition inner2 (X Y : arr) : K := lsum (zipw inner X Y).
End Model2.
Arguments get2 {K}. Arguments tab2 {K}. Arguments along_rows {K}. Arguments along_cols {K}.
Arguments padget {K}. Arguments xcorr2 {K}. Arguments flip2 {K}. Arguments conv2_times {K}.
Arguments conv2_trans {K}. Arguments inner2 {K}.

(** tv.py:116-124 and 126-134 over complex arrays; [Ci] is 1j *)
Definition Ci : Cx := (0%R, 1%R).
Definition tv2_comb (Dh Dv : list (list Cs)) : list (list Cs) :=
  zipw (fun r s => @vadd Cs r (@vscale Cs Ci s)) Dh Dv.
Definition tv2_times (M N : nat) (k : tv_kind) (X : list (list Cs)) : list (list Cs) :=
  tv2_comb (along_rows (tv_fwd k) X) (along_cols M N (tv_fwd k) X).
Definition tv2_trans (M N : nat) (k : tv_kind) (X : list (list Cs)) : list (list Cs) :=
  tv2_comb (along_rows (tv_adj k) X) (along_cols M N (tv_adj k) X).
