From Coq Require Import List Arith Bool Lia Reals Lra Psatz.
From Verif Require Import Scalar Vec LopSpec LopModel LopOpSpec LopLemmas LopProofs LopProofs2 FourierModel.
Import ListNotations.
Set Implicit Arguments.

Add Field CsF : (s_field Cs).
Local Open Scope scal_scope.
Notation "x @ i" := (nth i x s0) (at level 5, i at level 4).

(* [len] does not see that [list Cx] and [list (car Cs)] are the same type *)
Ltac clen := len; repeat match goal with
  H : @length ?A ?x = _ |- context [@length ?B ?x] => change (@length B x) with (@length A x); rewrite H end; try lia.
Lemma Some_inj A (a b : A) : Some a = Some b -> a = b.
Proof. congruence. Qed.
Lemma C_eq (a b : Cs) : fst a = fst b -> snd a = snd b -> a = b.
Proof. destruct a, b; simpl; congruence. Qed.

Lemma Cexp_add a b : Cexp a * Cexp b = Cexp (a + b)%R.
Proof. apply C_eq; simpl; rewrite ?cos_plus, ?sin_plus; ring. Qed.
Lemma Cexp_star a : star (Cexp a) = Cexp (- a)%R.
Proof. apply C_eq; simpl; now rewrite ?cos_neg, ?sin_neg. Qed.
Lemma Cexp_0 : Cexp 0 = s1.
Proof. apply C_eq; simpl; [apply cos_0|apply sin_0]. Qed.
Lemma Cexp_2PI : Cexp (2 * PI) = s1.
Proof. apply C_eq; simpl; [apply cos_2PI|apply sin_2PI]. Qed.

Lemma root_0 n : root n 0 = s1.
Proof. unfold root. simpl INR. replace (2 * PI * 0 / INR n)%R with 0%R by (unfold Rdiv; ring). apply Cexp_0. Qed.
Lemma root_add n a b : root n (a + b) = root n a * root n b.
Proof. unfold root. rewrite Cexp_add. f_equal. rewrite plus_INR. unfold Rdiv. ring. Qed.
Lemma root_n n : 0 < n -> root n n = s1.
Proof.
  intros H. unfold root. replace (2 * PI * INR n / INR n)%R with (2 * PI)%R; [apply Cexp_2PI|].
  field. apply not_0_INR. lia.
Qed.
Lemma root_mul_n n k : 0 < n -> root n (k * n) = s1.
Proof.
  intros H. induction k as [|k IH]; [apply root_0|]. simpl Nat.mul. rewrite root_add, IH, root_n by auto. ring.
Qed.
Lemma root_mod n m : 0 < n -> root n m = root n (m mod n).
Proof.
  intros H. rewrite (Nat.div_mod m n) at 1 by lia. rewrite root_add, Nat.mul_comm, root_mul_n by auto. ring.
Qed.
Lemma root_unit n a : star (root n a) * root n a = s1.
Proof.
  unfold root. rewrite Cexp_star, Cexp_add. rewrite <- Cexp_0. f_equal. ring.
Qed.
Lemma root_neq1 n d : 0 < d < n -> root n d <> s1.
Proof.
  intros H E. apply (f_equal fst) in E. simpl in E.
  set (t := (2 * PI * INR d / INR n)%R) in *.
  assert (Hn : (0 < INR n)%R) by (apply lt_0_INR; lia).
  assert (Hd : (0 < INR d)%R) by (apply lt_0_INR; lia).
  assert (Hdn : (INR d < INR n)%R) by (apply lt_INR; lia).
  assert (Ht : (0 < t / 2 < PI)%R).
  { unfold t. pose proof PI_RGT_0 as HP. split.
    - apply Rdiv_lt_0_compat; [|lra]. apply Rdiv_lt_0_compat; auto. apply Rmult_lt_0_compat; lra.
    - apply Rmult_lt_reg_r with (INR n); auto. unfold Rdiv.
      replace (2 * PI * INR d * / INR n * / 2 * INR n)%R with (PI * INR d)%R by (field; lra).
      apply Rmult_lt_compat_l; lra. }
  replace t with (2 * (t / 2))%R in E by field. rewrite cos_2a_sin in E.
  pose proof (sin_gt_0 (t / 2) (proj1 Ht) (proj2 Ht)). nra.
Qed.

Lemma geo n d N : (root n d - s1) * Sum N (fun k => root n (k * d)) = root n (N * d) - s1.
Proof.
  induction N as [|N IH].
  - simpl Nat.mul. rewrite root_0. cbn [Sum]. ring.
  - cbn [Sum]. replace (S N * d)%nat with (d + N * d)%nat by lia. rewrite root_add.
    transitivity ((root n d - s1) * Sum N (fun k => root n (k * d)) + (root n d - s1) * root n (N * d)); [ring|].
    rewrite IH. ring.
Qed.

Lemma Sum_const_1 N : Sum N (fun _ => @s1 Cs) = ofR (INR N).
Proof.
  induction N as [|N IH]; [reflexivity|]. cbn [Sum]. rewrite IH. rewrite S_INR, ofR_add, ofR_1. ring.
Qed.

Lemma root_sum n d : 0 < n -> Sum n (fun k => root n (k * d)) = if (d mod n =? 0)%nat then ofR (INR n) else s0.
Proof.
  intros Hn. rewrite (Sum_ext Cs _ (fun k => root n (k * (d mod n)))).
  2:{ intros k Hk. rewrite (root_mod (k * d)), (root_mod (k * (d mod n))) by auto.
      rewrite Nat.mul_mod_idemp_r by lia. reflexivity. }
  pose proof (Nat.mod_upper_bound d n ltac:(lia)) as Hm.
  destruct (Nat.eqb_spec (d mod n) 0) as [E|E].
  - rewrite E. rewrite <- Sum_const_1. apply Sum_ext. intros k Hk. rewrite Nat.mul_0_r. apply root_0.
  - pose proof (geo n (d mod n) n) as G. rewrite Nat.mul_comm, root_mul_n in G by auto.
    assert (Hr : root n (d mod n) <> s1) by (apply root_neq1; lia).
    assert (Hr' : root n (d mod n) - s1 <> s0).
    { intros Z. apply Hr. transitivity (root n (d mod n) - s1 + s1); [ring|]. rewrite Z. ring. }
    set (q := root n (d mod n)) in *. set (S0 := Sum n _) in *.
    transitivity ((q - s1) * S0 / (q - s1)); [field; auto|]. rewrite G. field. auto.
Qed.

Lemma root_star_sub n a b : (b <= a)%nat -> star (root n b) * root n a = root n (a - b).
Proof.
  intros H. replace a with (b + (a - b))%nat at 1 by lia. rewrite root_add.
  transitivity (star (root n b) * root n b * root n (a - b)); [ring|]. rewrite root_unit. ring.
Qed.
Lemma root_star n a : (a <= n)%nat -> 0 < n -> star (root n a) = root n (n - a).
Proof.
  intros H Hn. rewrite <- (root_star_sub n H). rewrite root_n by auto. ring.
Qed.

(** orthogonality *)
Lemma root_orth n a b : a < n -> b < n ->
  Sum n (fun k => star (root n (k * a)) * root n (k * b)) = if (a =? b)%nat then ofR (INR n) else s0.
Proof.
  intros Ha Hb.
  rewrite (Sum_ext Cs _ (fun k => root n (k * (b + (n - a))))).
  - rewrite root_sum by lia.
    destruct (Nat.eqb_spec a b).
    + subst. replace (b + (n - b))%nat with n by lia. rewrite Nat.mod_same by lia. reflexivity.
    + destruct (Nat.lt_ge_cases a b).
      * replace (b + (n - a))%nat with (b - a + 1 * n)%nat by lia. rewrite Nat.mod_add by lia.
        rewrite Nat.mod_small by lia. destruct (Nat.eqb_spec (b - a) 0); [lia|reflexivity].
      * rewrite Nat.mod_small by lia. destruct (Nat.eqb_spec (b + (n - a)) 0); [lia|reflexivity].
  - intros k Hk. rewrite Nat.mul_add_distr_l, root_add.
    replace (star (root n (k * a))) with (root n (k * (n - a))); [ring|].
    rewrite Nat.mul_sub_distr_l. rewrite <- root_star_sub by nia. rewrite root_mul_n by lia. ring.
Qed.

Lemma ofR_INR_neq0 n : 0 < n -> @ofR Cs (INR n) <> s0.
Proof. intros H. apply ofR_neq0. apply not_0_INR. lia. Qed.

Lemma dft_length n x : length (dft n x) = n. Proof. apply tab_length. Qed.
Lemma idft_length n x : length (idft n x) = n. Proof. apply tab_length. Qed.
Lemma dft_nth n x k : k < n -> (dft n x)@k = Sum n (fun j => star (root n (j * k)) * x@j).
Proof. intros. unfold dft. now rewrite nth_tab. Qed.
Lemma idft_nth n x k : k < n -> (idft n x)@k = ofR (/ INR n)%R * Sum n (fun j => root n (j * k) * x@j).
Proof. intros. unfold idft. now rewrite nth_tab. Qed.

Lemma Sum_pick_eq n i (f : nat -> Cs) : i < n -> Sum n (fun j => if (j =? i)%nat then f j else s0) = f i.
Proof. intros. rewrite Sum_delta. destruct (Nat.ltb_spec i n); [auto|lia]. Qed.

Lemma idft_dft n x : length x = n -> idft n (dft n x) = x.
Proof.
  intros Hx. apply list_eq_nth with (d := s0); rewrite idft_length; auto. intros i Hi.
  rewrite idft_nth by auto.
  rewrite (Sum_ext Cs _ (fun j => Sum n (fun l => star (root n (j * l)) * root n (j * i) * x@l))).
  2:{ intros j Hj. rewrite dft_nth by auto. rewrite <- Sum_mul_l. apply Sum_ext. intros l Hl.
      rewrite (Nat.mul_comm l j). ring. }
  rewrite Sum_exchange.
  rewrite (Sum_ext Cs _ (fun l => if (l =? i)%nat then ofR (INR n) * x@l else s0)).
  2:{ intros l Hl. rewrite Sum_mul_r, root_orth by auto. destruct (l =? i)%nat; ring. }
  rewrite Sum_pick_eq by auto.
  transitivity (ofR (/ INR n * INR n)%R * x@i); [rewrite ofR_mul; ring|].
  rewrite Rinv_l by (apply not_0_INR; lia). rewrite ofR_1. ring.
Qed.

Lemma dft_idft n x : length x = n -> dft n (idft n x) = x.
Proof.
  intros Hx. apply list_eq_nth with (d := s0); rewrite dft_length; auto. intros i Hi.
  rewrite dft_nth by auto.
  rewrite (Sum_ext Cs _ (fun j => Sum n (fun l => star (root n (j * i)) * root n (j * l) * (ofR (/ INR n)%R * x@l)))).
  2:{ intros j Hj. rewrite idft_nth by auto. rewrite <- !Sum_mul_l. apply Sum_ext. intros l Hl.
      rewrite (Nat.mul_comm l j). ring. }
  rewrite Sum_exchange.
  rewrite (Sum_ext Cs _ (fun l => if (l =? i)%nat then ofR (INR n) * (ofR (/ INR n)%R * x@l) else s0)).
  2:{ intros l Hl. rewrite Sum_mul_r, root_orth by auto. rewrite Nat.eqb_sym. destruct (l =? i)%nat; ring. }
  rewrite Sum_pick_eq by auto.
  transitivity (ofR (/ INR n * INR n)%R * x@i); [rewrite ofR_mul; ring|].
  rewrite Rinv_l by (apply not_0_INR; lia). rewrite ofR_1. ring.
Qed.

(** linearity in the sense needed *)
Lemma dft_scale n c x : dft n (vscale c x) = vscale c (dft n x).
Proof.
  apply list_eq_nth with (d := s0); [now rewrite vscale_length, !dft_length|].
  rewrite dft_length. intros i Hi. rewrite vscale_nth, !dft_nth by auto. rewrite <- Sum_mul_l.
  apply Sum_ext. intros j Hj. rewrite vscale_nth. ring.
Qed.
Lemma idft_scale n c x : idft n (vscale c x) = vscale c (idft n x).
Proof.
  apply list_eq_nth with (d := s0); [now rewrite vscale_length, !idft_length|].
  rewrite idft_length. intros i Hi. rewrite vscale_nth, !idft_nth by auto. rewrite <- !Sum_mul_l.
  apply Sum_ext. intros j Hj. rewrite vscale_nth. ring.
Qed.
Lemma vscale_vscale_1 (a b : R) (x : list Cs) : (a * b = 1)%R -> vscale (ofR a) (vscale (ofR b) x) = x.
Proof.
  intros H. apply list_eq_nth with (d := s0); [now rewrite !vscale_length|].
  intros i _. rewrite !vscale_nth.
  transitivity (ofR (a * b)%R * x@i); [rewrite ofR_mul; ring|]. rewrite H, ofR_1. ring.
Qed.

Lemma sqrt_INR_pos n : 0 < n -> (0 < sqrt (INR n))%R.
Proof. intros. apply sqrt_lt_R0. now apply lt_0_INR. Qed.

Lemma fourier_basis_inv n x : 0 < n -> length x = n ->
  trans (op_fourier_basis n) (times (op_fourier_basis n) x) = x /\
  times (op_fourier_basis n) (trans (op_fourier_basis n) x) = x.
Proof.
  intros Hn Hx. cbn [op_fourier_basis times trans]. pose proof (sqrt_INR_pos Hn). split.
  - rewrite dft_scale, dft_idft by auto. apply vscale_vscale_1. field. lra.
  - rewrite idft_scale, idft_dft by auto. apply vscale_vscale_1. field. lra.
Qed.

(** the (i,j) entry of the orthonormal Fourier matrix *)
Lemma fourier_scal n : 0 < n -> (sqrt (INR n) * / INR n = / sqrt (INR n))%R.
Proof.
  intros Hn. pose proof (sqrt_INR_pos Hn).
  replace (INR n) with (sqrt (INR n) * sqrt (INR n))%R at 2 by (apply sqrt_sqrt, pos_INR). field. lra.
Qed.
Lemma fourier_basis_entries n x i : 0 < n -> i < n ->
  (times (op_fourier_basis n) x)@i = ofR (/ sqrt (INR n))%R * Sum n (fun j => root n (j * i) * x@j).
Proof.
  intros Hn Hi. cbn [op_fourier_basis times]. rewrite vscale_nth, idft_nth by auto.
  rewrite <- (fourier_scal Hn), ofR_mul. ring.
Qed.
Lemma fourier_basis_adjoint n : 0 < n -> has_adjoint (op_fourier_basis n) n n.
Proof.
  intros Hn. split; [reflexivity|split; [reflexivity|]].
  apply adjoint_by_kernel with (a := fun i j => ofR (/ sqrt (INR n))%R * root n (j * i)).
  - intros. cbn [op_fourier_basis times]. now rewrite vscale_length, idft_length.
  - intros. cbn [op_fourier_basis trans]. now rewrite vscale_length, dft_length.
  - intros x i Hx Hi. rewrite fourier_basis_entries by auto. rewrite <- Sum_mul_l. apply Sum_ext. intros; ring.
  - intros y j Hy Hj. cbn [op_fourier_basis trans]. rewrite vscale_nth, dft_nth by auto.
    rewrite <- Sum_mul_l. apply Sum_ext. intros i Hi. rewrite star_mul, ofR_star.
    rewrite (Nat.mul_comm j i). ring.
Qed.
Lemma fourier_basis_isometry n x y : 0 < n -> length x = n -> length y = n ->
  inner (times (op_fourier_basis n) x) (times (op_fourier_basis n) y) = inner x y.
Proof.
  intros Hn Hx Hy. destruct (fourier_basis_adjoint Hn) as [_ [_ [H1 [H2 H3]]]].
  rewrite H3 by auto. now destruct (fourier_basis_inv _ Hn Hy) as [-> _].
Qed.

Lemma dirac_fourier_adjoint n : 0 < n -> has_adjoint (op_dirac_fourier_basis n) n (2 * n).
Proof.
  intros Hn. destruct (fourier_basis_adjoint Hn) as [_ [_ [H1 [H2 H3]]]].
  cbn [op_fourier_basis times trans] in *.
  split; [reflexivity|split; [reflexivity|]]. cbn [op_dirac_fourier_basis times trans]. split; [|split].
  - intros x Hx. apply vadd_length; [clen|]. rewrite vscale_length. apply idft_length.
  - intros x Hx. rewrite app_length, vscale_length, dft_length. clen.
  - intros x y Hx Hy. rewrite inner_add_l by (rewrite vscale_length, idft_length; clen).
    rewrite H3 by clen. rewrite <- (firstn_skipn n x) at 3. rewrite inner_app by clen. reflexivity.
Qed.

Lemma fft_c2c_adjoint m n T : 0 < n -> op_fft m n false = Some T -> has_adjoint T n m.
Proof.
  intros Hn. unfold op_fft. destruct (Nat.leb_spec m n) as [Hm|]; [|discriminate]. intros E; apply Some_inj in E; subst T.
  split; [reflexivity|split; [reflexivity|]]. cbn [times trans].
  apply adjoint_by_kernel with (a := fun i j => star (root n (j * i))).
  - intros. apply dft_length.
  - intros y Hy. rewrite firstn_length, vscale_length, idft_length. lia.
  - intros x i Hx Hi. rewrite dft_nth by auto. replace n with (m + (n - m))%nat at 1 by lia.
    rewrite Sum_split. rewrite (@Sum_0' Cs (n - m)%nat); [ring|].
    intros j Hj. rewrite (nth_over Cs x) by lia. ring.
  - intros y j Hy Hj. rewrite firstn_nth. destruct (Nat.ltb_spec j m); [|lia].
    rewrite vscale_nth, idft_nth by lia.
    transitivity (ofR (INR n * / INR n)%R * Sum n (fun j0 => root n (j0 * j) * y@j0)); [rewrite ofR_mul; ring|].
    rewrite Rinv_r by (apply not_0_INR; lia). rewrite ofR_1.
    transitivity (Sum n (fun j0 => root n (j0 * j) * y@j0)); [ring|].
    apply Sum_ext. intros i Hi. rewrite star_star, (Nat.mul_comm j i). ring.
Qed.

(** r2c: adjoint for the real inner product with real inputs *)
Lemma fft_r2c_adjoint m n T x w : 0 < n -> op_fft m n true = Some T -> length x = m -> length w = n ->
  is_real_vec x -> inner (times T x) w = inner x (trans T w).
Proof.
  intros Hn HT Hx Hw Hr. unfold op_fft in HT. destruct (Nat.leb_spec m n) as [Hm|]; [|discriminate].
  apply Some_inj in HT; subst T. cbn [times trans].
  destruct (@fft_c2c_adjoint m n _ Hn (ltac:(unfold op_fft; rewrite (proj2 (Nat.leb_le m n) Hm); reflexivity)))
    as [_ [_ [_ [_ H]]]].
  cbn [times trans] in H. rewrite <- H by auto. f_equal. f_equal.
  clear - Hr. induction x as [|[a b] x IH]; simpl; auto. f_equal.
  - assert (E := Hr (a, b) (or_introl eq_refl)). apply (f_equal snd) in E. simpl in E.
    apply C_eq; simpl; auto. lra.
  - apply IH. intros z Hz. apply Hr. now right.
Qed.

Lemma fft_r2c_refuted : exists T x w, op_fft 1 1 true = Some T /\ length x = 1%nat /\ length w = 1%nat /\
  inner (times T x) w <> inner x (trans T w).
Proof.
  eexists. exists [(0, 1)%R], [(1, 0)%R]. split; [reflexivity|]. split; [reflexivity|]. split; [reflexivity|].
  cbn [times trans]. unfold dft, idft, tab. cbn [seq map Sum inner length sre Cs]. cbn [nth vscale map firstn inner].
  simpl Nat.mul. rewrite root_0. intros E. apply (f_equal snd) in E. revert E. simpl. lra.
Qed.

(** *** real transforms *)
Lemma cplx_nth x i : (cplx x)@i = ((nth i x 0)%R, 0%R) :> Cs.
Proof. unfold cplx. exact (map_nth (fun a : R => (a, 0%R)) x 0%R i). Qed.
Lemma cplx_star x i : star ((cplx x)@i) = (cplx x)@i.
Proof. rewrite cplx_nth. apply C_eq; simpl; ring. Qed.

Lemma dft_real_herm n x k : 0 < k < n -> (dft n (cplx x))@(n - k) = star ((dft n (cplx x))@k).
Proof.
  intros Hk. rewrite !dft_nth by lia. rewrite star_Sum. apply Sum_ext. intros j Hj.
  rewrite star_mul, star_star, cplx_star. f_equal.
  rewrite Nat.mul_sub_distr_l. rewrite <- root_star_sub by nia. rewrite root_mul_n by lia.
  rewrite star_mul, star_star, star_1. ring.
Qed.

Lemma rfft_length n x : 0 < n -> length (rfft n x) = (n / 2 + 1)%nat.
Proof.
  intros H. unfold rfft. rewrite firstn_length, dft_length. pose proof (Nat.div_lt n 2 H ltac:(lia)). lia.
Qed.

Lemma half_facts n : (2 * (n / 2) <= n < 2 * (n / 2) + 2)%nat.
Proof. pose proof (Nat.div_mod n 2 ltac:(lia)). pose proof (Nat.mod_upper_bound n 2 ltac:(lia)). lia. Qed.

Lemma herm_prod n x y k : 0 < n -> k < n ->
  (herm_ext n (zipw smul (rfft n x) (rfft n y)))@k = (dft n (cplx x))@k * (dft n (cplx y))@k.
Proof.
  intros Hn Hk. unfold herm_ext. rewrite nth_tab by auto. pose proof (half_facts n) as Hf.
  assert (N : forall i, i <= n / 2 -> (zipw smul (rfft n x) (rfft n y))@i = (dft n (cplx x))@i * (dft n (cplx y))@i).
  { intros i Hi. rewrite nth_zipw with (da := s0) (db := s0) by (rewrite rfft_length by auto; lia).
    unfold rfft. rewrite !nth_firstn by lia. reflexivity. }
  destruct (Nat.leb_spec k (n / 2)).
  - now apply N.
  - rewrite N by lia. rewrite star_mul.
    replace k with (n - (n - k))%nat at 3 4 by lia. rewrite !dft_real_herm by lia. reflexivity.
Qed.

(** convolution theorem *)
Lemma conv_thm n x y i : 0 < n -> i < n ->
  (idft n (herm_ext n (zipw smul (rfft n x) (rfft n y))))@i =
  Sum n (fun j => Sum n (fun l => if ((j + l) mod n =? i)%nat then (cplx x)@j * (cplx y)@l else s0)).
Proof.
  intros Hn Hi. rewrite idft_nth by auto.
  rewrite (Sum_ext Cs _ (fun k => Sum n (fun j => Sum n (fun l => star (root n (k * (j + l))) * root n (k * i) * ((cplx x)@j * (cplx y)@l))))).
  2:{ intros k Hk. rewrite herm_prod by auto. rewrite !dft_nth by auto.
      rewrite <- Sum_mul_r, <- Sum_mul_l. apply Sum_ext. intros j Hj.
      rewrite <- Sum_mul_l, <- Sum_mul_l. apply Sum_ext. intros l Hl.
      rewrite Nat.mul_add_distr_l, root_add, star_mul. rewrite (Nat.mul_comm j k), (Nat.mul_comm l k). ring. }
  rewrite Sum_exchange. rewrite <- Sum_mul_l. apply Sum_ext. intros j Hj.
  rewrite Sum_exchange. rewrite <- Sum_mul_l. apply Sum_ext. intros l Hl.
  rewrite (Sum_ext Cs _ (fun k => star (root n (k * ((j + l) mod n))) * root n (k * i) * ((cplx x)@j * (cplx y)@l))).
  2:{ intros k Hk. f_equal. f_equal. f_equal. rewrite (root_mod (k * (j + l))), (root_mod (k * ((j + l) mod n))) by auto.
      now rewrite Nat.mul_mod_idemp_r by lia. }
  rewrite Sum_mul_r, root_orth by (auto; apply Nat.mod_upper_bound; lia).
  destruct (((j + l) mod n) =? i)%nat; [|ring].
  transitivity (ofR (/ INR n * INR n)%R * ((cplx x)@j * (cplx y)@l)); [rewrite ofR_mul; ring|].
  rewrite Rinv_l by (apply not_0_INR; lia). rewrite ofR_1. ring.
Qed.

Lemma fst_Sum n f : fst (@Sum Cs n f) = @Sum Rs n (fun i => fst (f i)).
Proof. induction n as [|n IH]; [reflexivity|]. cbn [Sum]. rewrite <- IH. reflexivity. Qed.

Lemma irfft_length n c : length (irfft n c) = n.
Proof. unfold irfft. rewrite map_length. apply idft_length. Qed.
Lemma irfft_nth n c i : nth i (irfft n c) 0%R = fst ((idft n (herm_ext n c))@i).
Proof. unfold irfft. exact (map_nth fst (idft n (herm_ext n c)) (@s0 Cs) i). Qed.

Lemma circ_nth n (x y : list R) i : 0 < n -> i < n ->
  nth i (irfft n (zipw smul (rfft n x) (rfft n y))) 0%R =
  @Sum Rs n (fun j => nth ((i + n - j) mod n) y 0%R * nth j x 0%R)%R.
Proof.
  intros Hn Hi. rewrite irfft_nth, conv_thm by auto. rewrite fst_Sum. apply (@Sum_ext Rs). intros j Hj.
  rewrite (@Sum_single Cs n ((i + n - j) mod n)).
  - assert (E : ((j + (i + n - j) mod n) mod n =? i)%nat = true).
    { apply Nat.eqb_eq. rewrite Nat.add_mod_idemp_r by lia. replace (j + (i + n - j))%nat with (i + 1 * n)%nat by lia.
      rewrite Nat.mod_add by lia. apply Nat.mod_small; auto. }
    rewrite E. rewrite !cplx_nth. simpl. ring.
  - apply Nat.mod_upper_bound. lia.
  - intros l Hl Hne. destruct (Nat.eqb_spec ((j + l) mod n) i) as [E|]; auto. exfalso. apply Hne.
    destruct (Nat.lt_ge_cases (j + l) n).
    + rewrite Nat.mod_small in E by lia. subst i. replace (j + l + n - j)%nat with (l + 1 * n)%nat by lia.
      rewrite Nat.mod_add by lia. now rewrite Nat.mod_small.
    + replace (j + l)%nat with (j + l - n + 1 * n)%nat in E by lia. rewrite Nat.mod_add in E by lia.
      rewrite Nat.mod_small in E by lia. subst i.
      replace (j + l - n + n - j)%nat with l by lia. now rewrite Nat.mod_small.
Qed.

Lemma c_padded_length n c : length c <= n -> length (c_padded n c) = n.
Proof. intros. unfold c_padded. len. Qed.
Lemma roll1_rev_nth (v : list R) l n : length v = n -> l < n ->
  nth l (roll1 (rev v)) 0%R = nth ((n - l) mod n) v 0%R.
Proof.
  intros Hv Hl. unfold roll1. destruct (rev v) as [|a r] eqn:E.
  { apply (f_equal (@length R)) in E. rewrite rev_length in E. simpl in E. lia. }
  rewrite <- E. destruct l as [|l].
  - cbn [nth]. rewrite rev_length, rev_nth by lia. rewrite Hv. replace (n - S (n - 1))%nat with 0%nat by lia.
    rewrite Nat.sub_0_r, Nat.mod_same by lia. reflexivity.
  - cbn [nth]. rewrite Nat.mod_small by lia.
    assert (HL : forall (w : list R) k, S k < length w -> nth k (removelast w) 0%R = nth k w 0%R).
    { clear. intros w. induction w as [|b w IH]; intros k H; simpl in H; [lia|].
      destruct w as [|c w]; [simpl in H; lia|]. cbn [removelast]. destruct k; [reflexivity|].
      cbn [nth]. apply IH. simpl in *. lia. }
    rewrite HL by (rewrite rev_length; lia). rewrite rev_nth by lia. f_equal. lia.
Qed.

Lemma circulant_entries n c T x i : op_circulant n c = Some T -> length x = n -> i < n ->
  nth i (times T x) 0%R = @Sum Rs n (fun j => nth ((i + n - j) mod n) c 0%R * nth j x 0%R)%R.
Proof.
  intros HT Hx Hi. unfold op_circulant in HT. destruct (Nat.leb_spec (length c) n); [|discriminate].
  apply Some_inj in HT; subst T. cbn [times mkop]. unfold circulant_times. rewrite circ_nth by lia.
  apply (@Sum_ext Rs). intros j Hj. f_equal. unfold c_padded.
  destruct (Nat.lt_ge_cases ((i + n - j) mod n) (length c)).
  - now rewrite app_nth1.
  - rewrite app_nth2 by auto. rewrite (nth_overflow c) by auto. apply nth_repeat_same.
Qed.
Lemma circulant_adjoint n c T : 0 < n -> op_circulant n c = Some T -> has_adjoint T n n.
Proof.
  intros Hn HT. pose proof (fun x i => @circulant_entries n c T x i HT) as HE.
  unfold op_circulant in HT. destruct (Nat.leb_spec (length c) n) as [Hc|]; [|discriminate].
  apply Some_inj in HT; subst T. split; [reflexivity|split; [reflexivity|]]. cbn [times trans mkop] in *.
  apply (@adjoint_by_kernel Rs) with (a := fun i j => nth ((i + n - j) mod n) c 0%R).
  - intros. apply irfft_length.
  - intros. apply irfft_length.
  - intros x i Hx Hi. apply HE; auto.
  - intros y j Hy Hj. unfold circulant_trans. simpl s0. rewrite circ_nth by auto. apply (@Sum_ext Rs). intros i Hi.
    cbn [star Rs smul]. f_equal.
    assert (HP : forall k, nth k (c_padded n c) 0%R = nth k c 0%R).
    { intros k. unfold c_padded. destruct (Nat.lt_ge_cases k (length c)).
      - now rewrite app_nth1.
      - rewrite app_nth2 by auto. rewrite (nth_overflow c) by auto. apply nth_repeat_same. }
    rewrite (@roll1_rev_nth _ _ n) by (try apply c_padded_length; auto; apply Nat.mod_upper_bound; lia).
    rewrite HP. f_equal.
    destruct (Nat.lt_ge_cases j i).
    + rewrite (Nat.mod_small (j + n - i)) by lia. replace (n - (j + n - i))%nat with (i - j)%nat by lia.
      replace (i + n - j)%nat with (i - j + 1 * n)%nat by lia. rewrite Nat.mod_add by lia. reflexivity.
    + replace (j + n - i)%nat with (j - i + 1 * n)%nat by lia. rewrite Nat.mod_add by lia.
      rewrite (Nat.mod_small (j - i)) by lia. f_equal. lia.
Qed.
