(** C13, two dimensions: dwt2D. *)
From Coq Require Import List Arith Bool Lia Reals Lra.
From Verif Require Import Vec RVec RMat BasisSpec BasisModel BasisProofs Dwt2Model Dwt2Spec Dwt2Proofs FourierProps.
Import ListNotations.
Local Open Scope R_scope.

(** For every orthogonal wavelet, image size and level (including 0) dwt2D
    advertises the padded shape, trans is the adjoint of times and reconstructs the
    image exactly; without padding the operator is orthogonal. *)
Theorem C13_dwt2D dwt1 idwt1 : orthogonal_filter_bank dwt1 idwt1 -> forall max_level n0 n1 level T,
  (1 <= n0)%nat -> (1 <= n1)%nat -> (level <= Nat.log2_up n0)%nat -> (level <= Nat.log2_up n1)%nat ->
  dwt2D dwt1 idwt1 max_level n0 n1 level A0 false = Some T ->
  let N0 := (2 ^ Nat.log2_up n0)%nat in let N1 := (2 ^ Nat.log2_up n1)%nat in
  out2 T = (N0, N1) /\ in2 T = (n0, n1) /\ adjoint_images N0 N1 n0 n1 (times2 T) (trans2 T) /\
  (forall X, shape n0 n1 X -> trans2 T (times2 T X) = X) /\
  (N0 = n0 -> N1 = n1 -> forall C, shape n0 n1 C -> times2 T (trans2 T C) = C).
Proof. intros F ml n0 n1 l T H0 H1 L0 L1. exact (dwt2D_ok dwt1 idwt1 F ml n0 n1 l A0 T H0 H1 (or_introl eq_refl) L0 L1). Qed.
Print Assumptions C13_dwt2D.
(** The same with the axes exchanged, for square images. *)
Theorem C13_dwt2D_swapped dwt1 idwt1 : orthogonal_filter_bank dwt1 idwt1 -> forall max_level n level T,
  (1 <= n)%nat -> (level <= Nat.log2_up n)%nat ->
  dwt2D dwt1 idwt1 max_level n n level A1 false = Some T ->
  let N := (2 ^ Nat.log2_up n)%nat in
  out2 T = (N, N) /\ in2 T = (n, n) /\ adjoint_images N N n n (times2 T) (trans2 T) /\
  (forall X, shape n n X -> trans2 T (times2 T X) = X) /\
  (N = n -> forall C, shape n n C -> times2 T (trans2 T C) = C).
Proof.
  intros F ml n l T H0 L0 HT N. destruct (dwt2D_ok dwt1 idwt1 F ml n n l A1 T H0 H0 (or_intror eq_refl) L0 L0 HT) as (A & B & C & D & E). repeat (split; auto).
Qed.
Print Assumptions C13_dwt2D_swapped.
(** basis = True exchanges the roles *)
Theorem C13_dwt2D_basis dwt1 idwt1 max_level n0 n1 level ax0 T : dwt2D dwt1 idwt1 max_level n0 n1 level ax0 true = Some T ->
  exists T', dwt2D dwt1 idwt1 max_level n0 n1 level ax0 false = Some T' /\
    times2 T = trans2 T' /\ trans2 T = times2 T' /\ out2 T = in2 T' /\ in2 T = out2 T'.
Proof.
  unfold dwt2D. destruct ax0; (destruct (level <=? _)%nat; [|discriminate]); intros E; injection E as <-; eexists; (split; [reflexivity|]); repeat split.
Qed.
Print Assumptions C13_dwt2D_basis.
(** It is accepted exactly when neither axis is too short for the level. *)
Theorem C13_dwt2D_accepts dwt1 idwt1 max_level n0 n1 level ax0 basis :
  (exists T, dwt2D dwt1 idwt1 max_level n0 n1 level ax0 basis = Some T) <-> (level <= max_level n0)%nat /\ (level <= max_level n1)%nat.
Proof.
  unfold dwt2D. destruct ax0; match goal with |- context [(level <=? ?q)%nat] => destruct (Nat.leb_spec level q) as [L|L] end; split; intros H; try lia.
  all: try (destruct H as [T H]; discriminate). all: eexists; reflexivity.
Qed.
Print Assumptions C13_dwt2D_accepts.
(** One level transforms all columns and then all rows, approximations first ... *)
Theorem C13_dwt2D_level_one dwt1 idwt1 : orthogonal_filter_bank dwt1 idwt1 -> forall p q X, (1 <= p)%nat -> (1 <= q)%nat -> shape (2 * p) (2 * q) X ->
  exists Z, shape (2 * p) (2 * q) Z /\
    (forall j, (j < 2 * q)%nat -> column (2 * p) j Z = fst (dwt1 (column (2 * p) j X)) ++ snd (dwt1 (column (2 * p) j X))) /\
    (forall i, (i < 2 * p)%nat -> nth i (wavedec2 dwt1 A0 A1 X 1) [] = fst (dwt1 (nth i Z [])) ++ snd (dwt1 (nth i Z []))).
Proof. exact (layout1 dwt1 idwt1). Qed.
Print Assumptions C13_dwt2D_level_one.
(** ... and every further level transforms the corner of approximations and
    leaves the details. *)
Theorem C13_dwt2D_levels dwt1 idwt1 : orthogonal_filter_bank dwt1 idwt1 -> forall l p q X, (1 <= p)%nat -> (1 <= q)%nat -> shape (2 * (2 ^ l * p)) (2 * (2 ^ l * q)) X ->
  let Y := wavedec2 dwt1 A0 A1 X 1 in let Z := wavedec2 dwt1 A0 A1 X (S l) in
  corner (2 ^ l * p) (2 ^ l * q) Z = wavedec2 dwt1 A0 A1 (corner (2 ^ l * p) (2 ^ l * q) Y) l /\
  forall i j, (i < 2 * (2 ^ l * p))%nat -> (j < 2 * (2 ^ l * q))%nat -> (2 ^ l * p <= i \/ 2 ^ l * q <= j)%nat -> ent Z i j = ent Y i j.
Proof. exact (layout_rec dwt1 idwt1). Qed.
Print Assumptions C13_dwt2D_levels.
Example C13_dwt2D_ex : orthogonal_filter_bank haar_dwt haar_idwt /\ (exists T, dwt2D haar_dwt haar_idwt (fun _ => 2%nat) 3 6 2 A0 false = Some T) /\
  (2 <= Nat.log2_up 3)%nat /\ (2 <= Nat.log2_up 6)%nat.
Proof. split; [exact C13_haar|]. split; [eexists; reflexivity|]. cbv. lia. Qed.
(** axes = (1, 0) pads and crops the wrong axes: already for a 2 x 4 image trans
    returns a 2 x 2 image *)
Theorem C13_dwt2D_axes_refuted : exists T, dwt2D haar_dwt haar_idwt (fun _ => 1%nat) 2 4 1 A1 false = Some T /\ in2 T = (2, 4)%nat /\
  forall X, shape 2 4 X -> ~ shape 2 4 (trans2 T (times2 T X)).
Proof.
  eexists. split; [reflexivity|]. split; [reflexivity|]. intros X SX [_ H]. cbn [trans2 times2] in H.
  set (Y := waverec2 haar_idwt A1 A0 _ 1) in H. assert (S : shape (Nat.min 4 (rows Y) - 0) (Nat.min 2 (cols Y) - 0) (sub2 0 (Nat.min 4 (rows Y)) 0 (Nat.min 2 (cols Y)) Y)) by apply sub2_shape.
  assert (R1 : (1 <= rows Y)%nat).
  { pose proof (wavedec2_D2 haar_dwt haar_len 1 2 ltac:(lia) ltac:(lia) A1 1 (pad2 0 0 X)) as E.
    pose proof (pad2_shape 2 4 0 0 X ltac:(lia) SX) as SP. cbn in SP. specialize (E SP). change (other A1) with A0 in E.
    unfold Y. cbn [next_pow2 Nat.log2_up]. change (next_pow2 4 - 4)%nat with 0%nat. change (next_pow2 2 - 2)%nat with 0%nat. rewrite E.
    pose proof (D2_shape haar_dwt haar_len 1 2 ltac:(lia) ltac:(lia) A1 1 _ SP) as SD.
    change A0 with (other A1). rewrite (waverec2_R2 haar_idwt haar_ilen 1 2 ltac:(lia) ltac:(lia) A1 1 _ SD).
    pose proof (R2_shape haar_idwt haar_ilen 1 2 ltac:(lia) ltac:(lia) A1 1 _ SD) as SR. rewrite (rows_shape _ _ _ SR). cbn. lia. }
  assert (L : length (nth 0 (sub2 0 (Nat.min 4 (rows Y)) 0 (Nat.min 2 (cols Y)) Y) []) = (Nat.min 2 (cols Y) - 0)%nat) by (apply (shape_row S); lia).
  rewrite H in L by (apply nth_In; destruct S as [S1 _]; change vec with (list R) in *; lia). lia.
Qed.
Print Assumptions C13_dwt2D_axes_refuted.
