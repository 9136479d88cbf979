From Coq Require Import List Arith Bool Lia ZArith Reals.
From Verif Require Import Scalar Vec LopSpec LopModel FourierModel NdSpec NdModel.
Import ListNotations.

Section P.
  Variable K : scalar.
  Add Field KfieldNd : (s_field K).
  Local Open Scope scal_scope.
  Notation vec := (list K).
  Notation arr := (arr K).

  Lemma ndsum_ext shape : forall f g : list nat -> K, (forall p, in_range shape p -> f p = g p) -> ndsum shape f = ndsum shape g.
  Proof.
    induction shape as [|n shape IH]; intros f g H; cbn [ndsum]; [apply H; constructor|].
    apply Sum_ext. intros i Hi. apply IH. intros p Hp. apply H. constructor; auto.
  Qed.
  Lemma ndsum_0 shape : ndsum shape (fun _ => s0) = @s0 K.
  Proof. induction shape as [|n shape IH]; cbn [ndsum]; [reflexivity|]. rewrite (@Sum_ext K n _ (fun _ => s0)) by (intros; apply IH). apply Sum_0. Qed.
  Lemma ndsum_add shape : forall f g : list nat -> K, ndsum shape (fun p => f p + g p) = ndsum shape f + ndsum shape g.
  Proof. induction shape as [|n shape IH]; intros f g; cbn [ndsum]; [reflexivity|]. rewrite <- Sum_add. apply Sum_ext. intros. apply IH. Qed.
  Lemma ndsum_mul_l shape : forall c (f : list nat -> K), ndsum shape (fun p => c * f p) = c * ndsum shape f.
  Proof. induction shape as [|n shape IH]; intros c f; cbn [ndsum]; [reflexivity|]. rewrite <- Sum_mul_l. apply Sum_ext. intros. apply IH. Qed.
  Lemma ndsum_mul_r shape c (f : list nat -> K) : ndsum shape (fun p => f p * c) = ndsum shape f * c.
  Proof. rewrite (ndsum_ext shape _ (fun p => c * f p)) by (intros; ring). rewrite ndsum_mul_l. ring. Qed.
  Lemma star_ndsum shape : forall f : list nat -> K, star (ndsum shape f) = ndsum shape (fun p => star (f p)).
  Proof. induction shape as [|n shape IH]; intros f; cbn [ndsum]; [reflexivity|]. rewrite star_Sum. apply Sum_ext. intros. apply IH. Qed.
  Lemma ndsum_Sum shape n : forall f : nat -> list nat -> K, Sum n (fun i => ndsum shape (fun p => f i p)) = ndsum shape (fun p => Sum n (fun i => f i p)).
  Proof.
    induction shape as [|k shape IH]; intros f; cbn [ndsum]; [reflexivity|].
    rewrite Sum_exchange. apply Sum_ext. intros i Hi. apply IH.
  Qed.

  (** *** along one axis *)
  Definition along (f : vec -> vec) (n a : nat) (x : arr) : arr := fun p => nth (nth a p 0%nat) (f (tab n (fun k => x (upd a k p)))) s0.
  Lemma along_adjoint m n f g : is_adjoint m n f g -> forall a shape x y, (a < length shape)%nat -> nth a shape 0%nat = n ->
    ndinner (upd a m shape) (along f n a x) y = ndinner shape x (along g m a y).
  Proof.
    intros [Hf [Hg H]]. induction a as [|a IH]; intros [|n0 shape] x y Ha Hn; cbn [length nth] in *; try lia.
    - subst n0. unfold ndinner. cbn [upd ndsum]. rewrite !ndsum_Sum. apply ndsum_ext. intros r _.
      unfold along. cbn [nth upd].
      set (X := tab n (fun k => x (k :: r))). set (Y := tab m (fun i => y (i :: r))).
      assert (LX : length X = n) by apply tab_length. assert (LY : length Y = m) by apply tab_length.
      specialize (H X Y LX LY). rewrite (@inner_Sum K m), (@inner_Sum K n) in H by auto.
      rewrite (@Sum_ext K m _ (fun i => star (nth i (f X) s0) * nth i Y s0)).
      + rewrite H. apply Sum_ext. intros k Hk. unfold X at 1. rewrite nth_tab by auto. reflexivity.
      + intros i Hi. unfold Y. rewrite nth_tab by auto. reflexivity.
    - unfold ndinner. cbn [upd ndsum]. apply Sum_ext. intros i Hi.
      exact (IH shape (fun p => x (i :: p)) (fun p => y (i :: p)) ltac:(lia) Hn).
  Qed.
  Lemma upd_upd a : forall k l p, upd a k (upd a l p) = upd a k p.
  Proof. induction a as [|a IH]; intros k l [|i p]; cbn; auto. now rewrite IH. Qed.
  Lemma nth_upd a : forall k p d, (a < length p)%nat -> nth a (upd a k p) d = k.
  Proof. induction a as [|a IH]; intros k [|i p] d H; cbn in *; try lia; auto. apply IH. lia. Qed.
  Lemma upd_length a : forall k p, length (upd a k p) = length p.
  Proof. induction a as [|a IH]; intros k [|i p]; cbn; auto. Qed.
  Lemma along_fibre m n f a shape x p : (forall v, length v = n -> length (f v) = m) -> (a < length shape)%nat -> (a < length p)%nat -> nth a shape 0%nat = n ->
    fibre (upd a m shape) a (along f n a x) p = f (fibre shape a x p).
  Proof.
    intros Hf Ha Hp Hn. unfold fibre. rewrite nth_upd by auto. rewrite Hn.
    set (v := tab n (fun k => x (upd a k p))). assert (Lv : length (f v) = m) by (apply Hf, tab_length).
    etransitivity; [|apply (tab_nth (f v) s0)]. rewrite Lv. apply tab_ext. intros i Hi.
    unfold along. rewrite nth_upd by auto. f_equal. f_equal. unfold v. apply tab_ext. intros k _. now rewrite upd_upd.
  Qed.
  Lemma norm_axis_lt nd axis a : norm_axis nd axis = Some a -> (a < nd)%nat.
  Proof.
    unfold norm_axis. destruct (Z.leb_spec 0 axis), (Z.ltb_spec axis (Z.of_nat nd)); cbn; try (intros [= <-]; lia);
    destruct (Z.leb_spec (- Z.of_nat nd) axis), (Z.ltb_spec axis 0); cbn; try (intros [= <-]; lia); discriminate.
  Qed.
  Lemma jnp_along_eq f axis shape x y : jnp_along f axis shape x = Some y -> exists a, norm_axis (length shape) axis = Some a /\ y = along f (nth a shape 0%nat) a x.
  Proof. unfold jnp_along. destruct (norm_axis _ _) as [a|]; [|discriminate]. intros [= <-]. exists a. split; reflexivity. Qed.

  (** *** reshape *)
  Lemma Sum_prod n s (f : nat -> K) : Sum (n * s) f = Sum n (fun i => Sum s (fun j => f (i * s + j)%nat)).
  Proof.
    induction n as [|n IH]; [reflexivity|]. replace (S n * s)%nat with (n * s + s)%nat by lia. rewrite Sum_split, IH. reflexivity.
  Qed.
  Lemma ndsum_unravel shape : forall f : list nat -> K, ndsum shape f = Sum (size shape) (fun k => f (unravel shape k)).
  Proof.
    induction shape as [|n shape IH]; intros f; cbn [ndsum unravel size fold_right].
    - cbn. ring.
    - fold (size shape). rewrite Sum_prod. apply Sum_ext. intros i Hi. rewrite IH. apply Sum_ext. intros j Hj.
      f_equal. f_equal; [rewrite Nat.div_add_l by lia; rewrite Nat.div_small by auto; lia|].
      f_equal. rewrite Nat.add_comm, Nat.mod_add by lia. now rewrite Nat.mod_small.
  Qed.
  Lemma ravel_unravel shape : forall k, (k < size shape)%nat -> ravel shape (unravel shape k) = k.
  Proof.
    induction shape as [|n shape IH]; intros k Hk; cbn in *; [lia|]. fold (size shape) in *.
    assert (size shape <> 0)%nat by (intros E; rewrite E in Hk; lia).
    rewrite IH by (apply Nat.mod_upper_bound; auto). rewrite (Nat.div_mod k (size shape)) at 3 by auto. lia.
  Qed.
  Lemma ravel_lt shape : forall p, in_range shape p -> (ravel shape p < size shape)%nat.
  Proof.
    induction shape as [|n shape IH]; intros p Hp; inversion Hp; subst; cbn; [lia|]. fold (size shape).
    specialize (IH _ H3). nia.
  Qed.
  Lemma unravel_ravel shape : forall p, in_range shape p -> unravel shape (ravel shape p) = p.
  Proof.
    induction shape as [|n shape IH]; intros p Hp; inversion Hp; subst; cbn; [reflexivity|]. fold (size shape).
    pose proof (ravel_lt _ _ H3). f_equal; [rewrite Nat.div_add_l by lia; rewrite Nat.div_small by auto; lia|].
    rewrite Nat.add_comm, Nat.mod_add by lia. rewrite Nat.mod_small by auto. now apply IH.
  Qed.
  Lemma unravel_range shape : forall k, (k < size shape)%nat -> in_range shape (unravel shape k).
  Proof.
    induction shape as [|n shape IH]; intros k Hk; cbn in *; [constructor|]. fold (size shape) in *.
    assert (size shape <> 0)%nat by (intros E; rewrite E in Hk; lia).
    constructor; [apply Nat.div_lt_upper_bound; [auto|lia]|]. apply IH, Nat.mod_upper_bound; auto.
  Qed.
  Lemma ndsum_app s t : forall f : list nat -> K, ndsum (s ++ t) f = ndsum s (fun p => ndsum t (fun q => f (p ++ q))).
  Proof. induction s as [|n s IH]; intros f; cbn [app ndsum]; [reflexivity|]. apply Sum_ext. intros. apply IH. Qed.
  Lemma ndsum_rev s : forall f : list nat -> K, ndsum (rev s) (fun p => f (rev p)) = ndsum s f.
  Proof.
    induction s as [|n s IH]; intros f; cbn [rev ndsum]; [reflexivity|].
    rewrite ndsum_app. cbn [ndsum]. rewrite <- ndsum_Sum. apply Sum_ext. intros i Hi.
    etransitivity; [apply ndsum_ext; intros p _; rewrite rev_app_distr; reflexivity|]. exact (IH (fun p => f (i :: p))).
  Qed.
  Lemma size_app s t : size (s ++ t) = (size s * size t)%nat.
  Proof. induction s as [|n s IH]; [cbn [app]; change (size []) with 1%nat; lia|]. cbn [app]. change (size (n :: s ++ t)) with (n * size (s ++ t))%nat. change (size (n :: s)) with (n * size s)%nat. rewrite IH. lia. Qed.
  Lemma size_rev s : size (rev s) = size s.
  Proof. induction s as [|n s IH]; [reflexivity|]. cbn [rev]. rewrite size_app, IH. change (size [n]) with (n * 1)%nat. change (size (n :: s)) with (n * size s)%nat. lia. Qed.
  Lemma in_range_rev shape p : in_range shape p -> in_range (rev shape) (rev p).
  Proof. unfold in_range. intros H. induction H; cbn; [constructor|]. apply Forall2_app; [auto|]. constructor; [auto|constructor]. Qed.

  Lemma reshapeC_inner inp out (x y : arr) : size inp = size out ->
    ndinner out (fun p => x (unravel inp (ravel out p))) y = ndinner inp x (fun p => y (unravel out (ravel inp p))).
  Proof.
    intros E. unfold ndinner. rewrite (ndsum_unravel out), (ndsum_unravel inp), E. apply Sum_ext. intros k Hk.
    rewrite ravel_unravel by auto. rewrite ravel_unravel by lia. reflexivity.
  Qed.
  Lemma reshapeF_inner inp out (x y : arr) : size inp = size out ->
    ndinner out (fun p => x (rev (unravel (rev inp) (ravel (rev out) (rev p))))) y =
    ndinner inp x (fun p => y (rev (unravel (rev out) (ravel (rev inp) (rev p))))).
  Proof.
    intros E. unfold ndinner. rewrite <- (ndsum_rev out), <- (ndsum_rev inp).
    pose proof (reshapeC_inner (rev inp) (rev out) (fun p => x (rev p)) (fun p => y (rev p)) ltac:(now rewrite !size_rev)) as H.
    unfold ndinner in H. etransitivity; [|etransitivity; [exact H|]]; apply ndsum_ext; intros p _; rewrite rev_involutive; reflexivity.
  Qed.
  Lemma reshape_adjoint o inp out (f g : arr -> option arr) x y fx gy : op_reshape o inp out = Some (f, g) -> f x = Some fx -> g y = Some gy ->
    ndinner out fx y = ndinner inp x gy.
  Proof.
    unfold op_reshape. destruct (Nat.eqb_spec (size inp) (size out)) as [E|]; [|discriminate]. intros [= <- <-]. unfold jnp_reshape.
    rewrite E, Nat.eqb_refl. destruct o; intros [= <-] [= <-]; [now apply reshapeC_inner|now apply reshapeF_inner].
  Qed.
  Lemma reshape_inverse o inp out (f g : arr -> option arr) x fx x' : op_reshape o inp out = Some (f, g) -> f x = Some fx -> g fx = Some x' ->
    same_array inp x' x.
  Proof.
    unfold op_reshape. destruct (Nat.eqb_spec (size inp) (size out)) as [E|]; [|discriminate]. intros [= <- <-]. unfold jnp_reshape.
    rewrite E, Nat.eqb_refl. destruct o; intros [= <-] [= <-] p Hp.
    - rewrite ravel_unravel by (rewrite <- E; now apply ravel_lt). now rewrite unravel_ravel.
    - rewrite rev_involutive. pose proof (in_range_rev _ _ Hp) as Hr.
      rewrite ravel_unravel by (rewrite size_rev, <- E, <- size_rev; now apply ravel_lt). rewrite unravel_ravel by auto. now rewrite rev_involutive.
  Qed.
End P.
