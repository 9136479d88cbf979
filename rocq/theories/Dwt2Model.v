(** Two-dimensional wavelet transform operators: lop/dwt.py:56-113 and 169-229,
    for two-dimensional images.  An image is the list of its rows. *)
From Coq Require Import List Arith Bool Reals.
From Verif Require Import Vec RVec RMat BasisModel.
Import ListNotations.

Inductive axis := A0 | A1.
Definition tab2r (h w : nat) (f : nat -> nat -> R) : mat := tab h (fun i => tab w (f i)).
(** the shape of an array with at least one row *)
Definition rows (X : mat) : nat := length X.
Definition cols (X : mat) : nat := length (nth 0 X []).
Definition dim (a : axis) (X : mat) : nat := match a with A0 => rows X | A1 => cols X end.
Definition transpose (X : mat) : mat := tab2r (cols X) (rows X) (fun i j => ent X j i).
(** jnp.concatenate along an axis *)
Definition cat (a : axis) (X Y : mat) : mat := match a with A0 => X ++ Y | A1 => zipw (@app R) X Y end.
(** X[r0:r1, c0:c1] for ranges inside the array *)
Definition sub2 (r0 r1 c0 c1 : nat) (X : mat) : mat := tab2r (r1 - r0) (c1 - c0) (fun i j => ent X (r0 + i) (c0 + j)).
(** the same with the first range along the axis ax0 (slices[ax0], slices[ax1]) *)
Definition slice2 (ax0 : axis) (s0 e0 s1 e1 : nat) (X : mat) : mat :=
  match ax0 with A0 => sub2 s0 e0 s1 e1 X | A1 => sub2 s1 e1 s0 e0 X end.
(** X.at[0:r, 0:c].set(C) *)
Definition set2 (r c : nat) (C X : mat) : mat :=
  tab2r (rows X) (cols X) (fun i j => if (i <? r) && (j <? c) then ent C i j else ent X i j).
Definition setblock (ax0 : axis) (e0 e1 : nat) (C X : mat) : mat :=
  match ax0 with A0 => set2 e0 e1 C X | A1 => set2 e1 e0 C X end.
(** jnp.pad(x, ((0, p0), (0, p1))) *)
Definition pad2 (p0 p1 : nat) (X : mat) : mat :=
  tab2r (rows X + p0) (cols X + p1) (fun i j => if (i <? rows X) && (j <? cols X) then ent X i j else 0%R).

Section W2.
  (** wt.dwt_ and wt.idwt_ with the filters of the wavelet (cr.wavelets) *)
  Variable dwt1 : list R -> list R * list R.
  Variable idwt1 : list R -> list R -> list R.
  (** wt.dwt_axis_, wt.idwt_axis_: the one-level transform of all lines along an axis *)
  Definition dwt_axis (a : axis) (X : mat) : mat * mat :=
    match a with
    | A1 => (map (fun r => fst (dwt1 r)) X, map (fun r => snd (dwt1 r)) X)
    | A0 => (transpose (map (fun r => fst (dwt1 r)) (transpose X)), transpose (map (fun r => snd (dwt1 r)) (transpose X)))
    end.
  Definition idwt_axis (a : axis) (A D : mat) : mat :=
    match a with A1 => zipw idwt1 A D | A0 => transpose (zipw idwt1 (transpose A) (transpose D)) end.

  (** dwt.py:56-78, the loop of wavedec2: (image, result, the two slice ends) *)
  Fixpoint wavedec2_loop (ax0 ax1 : axis) (k : nat) (image result : mat) (e0 e1 : nat) : mat :=
    match k with
    | O => result
    | S k =>
      let (ca, cd) := dwt_axis ax0 image in
      let (caa, cad) := dwt_axis ax1 ca in
      let (cda, cdd) := dwt_axis ax1 cd in
      let coefs := cat ax0 (cat ax1 caa cad) (cat ax1 cda cdd) in
      wavedec2_loop ax0 ax1 k caa (setblock ax0 e0 e1 coefs result) (dim ax0 caa) (dim ax1 caa)
    end.
  Definition wavedec2 (ax0 ax1 : axis) (image : mat) (level : nat) : mat :=
    wavedec2_loop ax0 ax1 level image image (dim ax0 image) (dim ax1 image).
  (** dwt.py:80-113, waverec2 *)
  Fixpoint waverec2_loop (ax0 ax1 : axis) (coefs : mat) (k : nat) (caa : mat) (mid0 mid1 end0 end1 : nat) : mat :=
    match k with
    | O => caa
    | S k =>
      let cad := slice2 ax0 0 mid0 mid1 end1 coefs in
      let cda := slice2 ax0 mid0 end0 0 mid1 coefs in
      let cdd := slice2 ax0 mid0 end0 mid1 end1 coefs in
      let ca := idwt_axis ax1 caa cad in
      let cd := idwt_axis ax1 cda cdd in
      waverec2_loop ax0 ax1 coefs k (idwt_axis ax0 ca cd) end0 end1 (end0 * 2) (end1 * 2)
    end.
  Definition waverec2 (ax0 ax1 : axis) (coefs : mat) (level : nat) : mat :=
    let mid0 := dim ax0 coefs / 2 ^ level in
    let mid1 := dim ax1 coefs / 2 ^ level in
    waverec2_loop ax0 ax1 coefs level (slice2 ax0 0 mid0 0 mid1 coefs) mid0 mid1 (mid0 * 2) (mid1 * 2).

  (** an operator between images: times, trans and the two shapes *)
  Record op2 := Op2 { times2 : mat -> mat; trans2 : mat -> mat; out2 : nat * nat; in2 : nat * nat }.
  (** dwt.py:169-229, dwt2D((n0, n1), wavelet, level, axes, basis) with axes =
      (0, 1) for ax0 = A0 and (1, 0) for ax0 = A1.  max_level stands for
      wt.dwt_max_level(., wavelet.dec_len); None models the failed assertion. *)
  Definition dwt2D (max_level : nat -> nat) (n0 n1 : nat) (level : nat) (ax0 : axis) (basis : bool) : option op2 :=
    let ax1 := match ax0 with A0 => A1 | A1 => A0 end in
    let (h, w) := match ax0 with A0 => (n0, n1) | A1 => (n1, n0) end in
    if level <=? Nat.min (max_level h) (max_level w) then
      let hh := next_pow2 h in
      let ww := next_pow2 w in
      let out_shape := match ax0 with A0 => (hh, ww) | A1 => (ww, hh) end in
      let times := fun X => wavedec2 ax0 ax1 (pad2 (hh - h) (ww - w) X) level in
      let trans := fun C => sub2 0 (Nat.min h (rows (waverec2 ax0 ax1 C level))) 0 (Nat.min w (cols (waverec2 ax0 ax1 C level))) (waverec2 ax0 ax1 C level) in
      Some (if basis then Op2 trans times (n0, n1) out_shape else Op2 times trans out_shape (n0, n1))
    else None.
End W2.
