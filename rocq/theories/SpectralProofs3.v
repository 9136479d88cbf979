(** The fast variant: leading singular vectors of the normalised affinity. *)
From Coq Require Import List Arith Bool Lia Reals Lra Psatz.
From Verif Require Import Vec RVec RMat Loop LoopLemmas SelModel KMeansModel KMeansSpec KMeansProofs SolverSpec ClusterModel SscModel SscSpec SscProofs LaplacianProofs SpectralModel SpectralSpec SpectralProofs SpectralProofs2.
Import ListNotations.
Set Implicit Arguments.
Local Open Scope R_scope.

Definition sd (n : nat) (W : mat) (i : nat) : R := sqrt (degree n W i).
Section Fast.
  Variables (n k : nat) (W M : mat) (c : nat -> nat).
  Hypothesis HW : normalized_symmetric_w n W = Some M.
  Hypothesis Sy : symmetric n W.
  Hypothesis Nn : nonnegative n W.
  Hypothesis HC : components n W k c.
  Hypothesis Hbip : forall i, (i < n)%nat -> ~ two_colourable n W i.
  Notation s := (sd n W).
  Notation A := (Mf n M).
  Lemma deg_pos i : (i < n)%nat -> 0 < degree n W i.
  Proof. intros Hi. rewrite <- degrees_sym by auto. eapply nsym_pos; eauto. Qed.
  Lemma s_pos i : (i < n)%nat -> 0 < s i.
  Proof. intros Hi. unfold sd. now apply sqrt_lt_R0, deg_pos. Qed.
  Lemma s_sq i : (i < n)%nat -> s i * s i = degree n W i.
  Proof. intros Hi. unfold sd. apply sqrt_sqrt. left. now apply deg_pos. Qed.
  Lemma m_ent i j : (i < n)%nat -> (j < n)%nat -> ent M i j = ent W i j / (s i * s j).
  Proof.
    intros Hi Hj. rewrite (@nsym_ent n W M HW i j Hi Hj), !degrees_sym by auto. fold (sd n W i) (sd n W j). pose proof (s_pos Hi). pose proof (s_pos Hj). field. split; lra.
  Qed.
  Lemma m_sym i j : (i < n)%nat -> (j < n)%nat -> ent M i j = ent M j i.
  Proof. apply (@nsym_symmetric n W M HW Sy). Qed.
  (** x^T x + e x^T M x for e = 1, -1 *)
  Lemma quad_edges e x : e * e = 1 ->
    rsum n (fun i => x i * x i) + e * rsum n (fun i => x i * A x i) =
    rsum n (fun i => rsum n (fun j => ent W i j * ((x i / s i + e * (x j / s j)) * (x i / s i + e * (x j / s j))))) / 2.
  Proof.
    intros He. set (y := fun i => x i / s i).
    assert (E1 : rsum n (fun i => x i * x i) = rsum n (fun i => rsum n (fun j => ent W i j * (y i * y i)))).
    { apply rsum_ext. intros i Hi. rewrite rsum_mul_r. change (rsum n (ent W i)) with (degree n W i). rewrite <- (s_sq Hi). unfold y. pose proof (s_pos Hi). field. lra. }
    assert (E2 : rsum n (fun i => x i * x i) = rsum n (fun i => rsum n (fun j => ent W i j * (y j * y j)))).
    { rewrite E1, rsum_exchange. apply rsum_ext. intros i Hi. apply rsum_ext. intros j Hj. now rewrite Sy. }
    assert (E3 : rsum n (fun i => x i * A x i) = rsum n (fun i => rsum n (fun j => ent W i j * (y i * y j)))).
    { apply rsum_ext. intros i Hi. unfold Mf. rewrite <- rsum_mul_l. apply rsum_ext. intros j Hj. rewrite m_ent by auto. unfold y.
      pose proof (s_pos Hi). pose proof (s_pos Hj). field. split; lra. }
    assert (E4 : rsum n (fun i => rsum n (fun j => ent W i j * ((x i / s i + e * (x j / s j)) * (x i / s i + e * (x j / s j))))) =
      rsum n (fun i => rsum n (fun j => ent W i j * (y i * y i))) + rsum n (fun i => rsum n (fun j => ent W i j * (y j * y j))) +
      2 * e * rsum n (fun i => rsum n (fun j => ent W i j * (y i * y j)))).
    { rewrite <- rsum_mul_l, <- !rsum_add. apply rsum_ext. intros i Hi. rewrite <- rsum_mul_l, <- !rsum_add. apply rsum_ext. intros j Hj.
      fold (y i). fold (y j). transitivity (ent W i j * (y i * y i) + (e * e) * (ent W i j * (y j * y j)) + 2 * e * (ent W i j * (y i * y j))); [ring|]. rewrite He. ring. }
    rewrite E4, <- E1, <- E2, <- E3. field.
  Qed.
  Lemma quad_nonneg e x : e * e = 1 -> 0 <= rsum n (fun i => x i * x i) + e * rsum n (fun i => x i * A x i).
  Proof.
    intros He. rewrite quad_edges by auto. apply Rmult_le_pos; [|lra]. apply rsum_pos. intros i Hi. apply rsum_pos. intros j Hj.
    apply Rmult_le_pos; [now apply Nn|apply Rle_0_sqr].
  Qed.
  Lemma quad_zero e x : e * e = 1 -> rsum n (fun i => x i * x i) + e * rsum n (fun i => x i * A x i) = 0 ->
    forall i j, (i < n)%nat -> (j < n)%nat -> ent W i j <> 0 -> x i / s i = - e * (x j / s j).
  Proof.
    intros He H i j Hi Hj E. rewrite quad_edges in H by auto.
    assert (T : forall i j, (i < n)%nat -> (j < n)%nat -> 0 <= ent W i j * ((x i / s i + e * (x j / s j)) * (x i / s i + e * (x j / s j))))
      by (intros; apply Rmult_le_pos; [now apply Nn|apply Rle_0_sqr]).
    assert (H' : rsum n (fun i => rsum n (fun j => ent W i j * ((x i / s i + e * (x j / s j)) * (x i / s i + e * (x j / s j))))) = 0) by lra.
    assert (Z := rsum_eq0 _ (fun i Hi => rsum_pos _ (fun j Hj => T i j Hi Hj)) H' Hi). cbv beta in Z.
    assert (Z2 := rsum_eq0 _ (fun j Hj => T i j Hi Hj) Z Hj). cbv beta in Z2.
    apply Rmult_integral in Z2 as [Z2|Z2]; [easy|]. apply Rmult_integral in Z2 as [Z2|Z2]; lra.
  Qed.
  (** the fixed vectors *)
  Lemma fixed_prop x : (forall i, (i < n)%nat -> A x i = x i) <-> prop_on n c s x.
  Proof.
    split.
    - intros H. assert (E : forall i j, (i < n)%nat -> (j < n)%nat -> ent W i j <> 0 -> x i / s i = x j / s j).
      { intros i j Hi Hj E. rewrite (@quad_zero (-1) x ltac:(ring)) with (j := j); auto; [ring|].
        rewrite (rsum_ext (n := n) (fun i => x i * A x i) (fun i => x i * x i)); [ring|]. intros m Hm. now rewrite H. }
      pose proof (proj1 (edge_const_groups HC (fun i => x i / s i)) E) as G. intros i j Hi Hj Hc. specialize (G i j Hi Hj Hc). cbv beta in G.
      pose proof (s_pos Hi). pose proof (s_pos Hj).
      transitivity (x i / s i * s i * s j); [field; lra|]. rewrite G. field. lra.
    - intros H i Hi. unfold Mf. rewrite (rsum_ext _ (fun j => x i / degree n W i * ent W i j)).
      + rewrite rsum_mul_l. change (rsum n (ent W i)) with (degree n W i). pose proof (deg_pos Hi). field. lra.
      + intros j Hj. rewrite m_ent by auto. pose proof (s_pos Hi). pose proof (s_pos Hj). rewrite <- (s_sq Hi).
        destruct (Req_dec (ent W i j) 0) as [->|E]; [unfold Rdiv; ring|].
        assert (Q : x i * s j = x j * s i) by (apply H; auto; apply HC; auto; now apply connected_edge).
        apply (Rmult_eq_reg_r (s i * s j)); [|nra]. transitivity (ent W i j * x j); [field; lra|]. transitivity (ent W i j * (x i * s j) / s i); [rewrite Q; field; lra|field; lra].
  Qed.
  Lemma A_sym x y : rsum n (fun i => y i * A x i) = rsum n (fun i => x i * A y i).
  Proof.
    unfold Mf. rewrite (rsum_ext _ (fun i => rsum n (fun j => y i * ent M i j * x j))) by (intros; rewrite <- rsum_mul_l; apply rsum_ext; intros; ring).
    rewrite rsum_exchange. apply rsum_ext. intros i Hi. rewrite <- rsum_mul_l. apply rsum_ext. intros j Hj. rewrite (m_sym Hj Hi). ring.
  Qed.
  Lemma A_sub x y i : A (fun i => x i - y i) i = A x i - A y i.
  Proof. unfold Mf. rewrite <- rsum_sub. apply rsum_ext. intros. ring. Qed.
  Lemma A_ext x y i : (forall j, (j < n)%nat -> x j = y j) -> A x i = A y i.
  Proof. intros H. unfold Mf. apply rsum_ext. intros j Hj. now rewrite H. Qed.
  (** no vector is negated, hence vectors fixed by the square are fixed *)
  Lemma negated_zero x : (forall i, (i < n)%nat -> A x i = - x i) -> forall i, (i < n)%nat -> x i = 0.
  Proof.
    intros H i Hi. destruct (Req_dec (x i) 0) as [|Ne]; auto. exfalso. apply (Hbip Hi).
    assert (E : forall p r, (p < n)%nat -> (r < n)%nat -> ent W p r <> 0 -> x p / s p = - (x r / s r)).
    { intros p r Hp Hr E. rewrite (@quad_zero 1 x ltac:(ring)) with (j := r); auto; [ring|].
      rewrite (rsum_ext (n := n) (fun i => x i * A x i) (fun i => - (x i * x i))); [rewrite rsum_opp; ring|]. intros m Hm. rewrite H by auto. ring. }
    assert (Z : forall p q, connected n W p q -> x p / s p <> 0 -> x q / s q <> 0).
    { intros p q C. induction C as [|p r q Hp Hr En C IH]; auto. intros K. apply IH. rewrite (E p r) in K by auto. lra. }
    exists (fun p => Rltb 0 (x p / s p)). intros p r Hp Hr C En.
    assert (Np : x p / s p <> 0).
    { apply (Z i p C). intros K. apply Ne. pose proof (s_pos Hi). transitivity (x i / s i * s i); [field; lra|]. rewrite K. ring. }
    pose proof (E p r Hp Hr En) as Q. destruct (Rltb_spec 0 (x p / s p)), (Rltb_spec 0 (x r / s r)); try discriminate; intros _; lra.
  Qed.
  Lemma square_fixed x : (forall i, (i < n)%nat -> A (A x) i = x i) -> forall i, (i < n)%nat -> A x i = x i.
  Proof.
    intros H i Hi. assert (Z := @negated_zero (fun i => x i - A x i)).
    assert (K : forall i, (i < n)%nat -> A (fun i => x i - A x i) i = - (x i - A x i)) by (intros m Hm; rewrite A_sub, H by auto; ring).
    specialize (Z K i Hi). cbv beta in Z. lra.
  Qed.

  Variables (U VH : mat) (sv : vec).
  Hypothesis HS : is_svd n M U sv VH.
  Notation V := (ent VH).
  Definition fsel (l : nat) : bool := Reqb (sv@l) 1.
  Notation u := (fun l i => ent U i l).
  Lemma A_u l i : (l < n)%nat -> (i < n)%nat -> A (u l) i = sv@l * V l i.
  Proof.
    intros Hl Hi. pose proof (Mf_left HS (delta i) Hl) as K.
    rewrite (rsum_ext (n := n) (fun j => V l j * delta i j) (fun j => delta i j * V l j)) in K by (intros; ring).
    rewrite (@delta_sum n i (V l)) in K by auto. rewrite <- K. unfold Mf. apply rsum_ext. intros j Hj.
    rewrite (rsum_ext (n := n) (fun j0 => ent M j j0 * delta i j0) (fun j0 => delta i j0 * ent M j j0)) by (intros; ring).
    rewrite (@delta_sum n i (ent M j)) by auto. rewrite (m_sym Hi Hj). ring.
  Qed.
  Lemma sv_le_1 l : (l < n)%nat -> sv@l <= 1.
  Proof.
    intros Hl. destruct HS as [OU [OV _]].
    assert (NU : rsum n (fun i => u l i * u l i) = 1) by (destruct (OU l l Hl Hl) as [_ ->]; unfold delta; now rewrite Nat.eqb_refl).
    assert (NV : rsum n (fun i => V l i * V l i) = 1) by (destruct (OV l l Hl Hl) as [-> _]; unfold delta; now rewrite Nat.eqb_refl).
    assert (UMV : rsum n (fun i => u l i * A (V l) i) = sv@l).
    { rewrite (Mf_left HS) by auto. rewrite NV. ring. }
    pose proof (@quad_nonneg (-1) (fun i => u l i + V l i) ltac:(ring)) as Q1.
    pose proof (@quad_nonneg 1 (fun i => u l i - V l i) ltac:(ring)) as Q2.
    assert (X1 : rsum n (fun i => (u l i + V l i) * (u l i + V l i)) + rsum n (fun i => (u l i - V l i) * (u l i - V l i)) = 4).
    { rewrite <- rsum_add. rewrite (rsum_ext _ (fun i => 2 * (u l i * u l i) + 2 * (V l i * V l i))) by (intros; ring).
      rewrite rsum_add, !rsum_mul_l. rewrite NU, NV. ring. }
    assert (X2 : rsum n (fun i => (u l i + V l i) * A (fun i => u l i + V l i) i) - rsum n (fun i => (u l i - V l i) * A (fun i => u l i - V l i) i) = 4 * sv@l).
    { rewrite <- rsum_sub. rewrite (rsum_ext _ (fun i => 2 * (u l i * A (V l) i) + 2 * (V l i * A (u l) i))).
      - rewrite rsum_add, !rsum_mul_l, (A_sym (u l) (V l)). rewrite UMV. ring.
      - intros i Hi. rewrite A_sub. assert (AA : A (fun i => u l i + V l i) i = A (u l) i + A (V l) i) by (unfold Mf; rewrite <- rsum_add; apply rsum_ext; intros; ring).
        rewrite AA. ring. }
    lra.
  Qed.
  Lemma fsel1 l : (l < n)%nat -> fsel l = true -> prop_on n c s (V l).
  Proof.
    intros Hl E. apply fixed_prop. unfold fsel in E. destruct (Reqb_spec (sv@l) 1) as [S1|]; [|discriminate].
    apply square_fixed. intros i Hi. rewrite (@A_ext (A (V l)) (u l)).
    - rewrite A_u, S1 by auto. ring.
    - intros j Hj. rewrite (Mf_vec HS) by auto. rewrite S1. ring.
  Qed.
  Lemma fsel2 l x : (l < n)%nat -> fsel l = false -> prop_on n c s x -> rsum n (fun i => V l i * x i) = 0.
  Proof.
    intros Hl E Hx. pose proof (proj2 (fixed_prop x) Hx) as F. unfold fsel in E. destruct (Reqb_spec (sv@l) 1) as [|N]; [discriminate|].
    pose proof (Mf_left HS x Hl) as K1.
    assert (K2 : rsum n (fun i => V l i * A x i) = sv@l * rsum n (fun i => ent U i l * x i)).
    { rewrite A_sym, <- rsum_mul_l. apply rsum_ext. intros i Hi. rewrite (Mf_vec HS) by auto. ring. }
    rewrite (rsum_ext (n := n) (fun i => ent U i l * A x i) (fun i => ent U i l * x i)) in K1 by (intros; now rewrite F).
    rewrite (rsum_ext (n := n) (fun i => V l i * A x i) (fun i => V l i * x i)) in K2 by (intros; now rewrite F).
    rewrite K1 in K2. set (t := rsum n (fun i => V l i * x i)) in *. destruct HS as [_ [_ [_ [P _]]]]. specialize (P l Hl).
    assert (Q : t * ((1 - sv@l) * (1 + sv@l)) = 0) by nra. apply Rmult_integral in Q as [Q|Q]; auto.
    apply Rmult_integral in Q as [Q|Q]; [exfalso; apply N; lra|lra].
  Qed.
  Lemma ones_first : (k <= n)%nat /\ forall l, (l < n)%nat -> (sv@l = 1 <-> (l < k)%nat).
  Proof.
    destruct HC as [C1 [C2 _]]. pose proof HS as [_ [_ [_ [P [D _]]]]].
    destruct (@down_closed_count n k fsel) as [Hk Hf].
    - intros i j Hij Hj E. unfold fsel in *. destruct (Reqb_spec (sv@j) 1) as [Z|]; [|discriminate].
      destruct (Reqb_spec (sv@i) 1) as [|N]; auto. specialize (D i j Hij Hj). pose proof (@sv_le_1 i ltac:(lia)). exfalso. apply N. lra.
    - exact (@trace_count n c s V fsel s_pos (V1 HS) (V2 HS) fsel1 fsel2 k C1 C2).
    - split; auto. intros l Hl. specialize (Hf l Hl). unfold fsel in Hf.
      destruct (Reqb_spec (sv@l) 1), (Nat.ltb_spec l k); try discriminate; split; auto; try easy. intros. lia.
  Qed.

  Variable Vk : mat.
  Hypothesis HV : forall j, (j < k)%nat -> forall i, (i < n)%nat -> ent Vk i j = ent VH j i.
  Notation K0 := (first_columns n k Vk).
  Lemma k0_shape : shape n k K0.
  Proof. unfold first_columns. split; [apply tab_length|]. intros r Hr. apply in_map_iff in Hr. destruct Hr as [i [<- _]]. apply tab_length. Qed.
  Lemma k0_gram i j : (i < n)%nat -> (j < n)%nat ->
    rdot (nth i K0 []) (nth j K0 []) = if Nat.eqb (c i) (c j) then s i * s j / vol n c s (c j) else 0.
  Proof.
    intros Hi Hj. destruct ones_first as [Hk Hz]. rewrite <- (@gram n c s V fsel s_pos (V2 HS) fsel1 fsel2 i j Hi Hj).
    unfold first_columns. rewrite !nth_tab by auto. rewrite (@rdot_sum k) by apply tab_length.
    replace n with (k + (n - k))%nat at 1 by lia. rewrite rsum_split.
    assert (Z0 : rsum (n - k) (fun l => if fsel (k + l) then V (k + l)%nat i * V (k + l)%nat j else 0) = 0).
    { apply rsum_0'. intros l Hl. unfold fsel. destruct (Reqb_spec (sv@(k + l)) 1) as [Z|]; auto. apply Hz in Z; lia. }
    rewrite Z0, Rplus_0_r. apply rsum_ext. intros l Hl. rewrite !nth_tab by auto. unfold fsel.
    destruct (Reqb_spec (sv@l) 1) as [|N]; [now rewrite !HV|]. exfalso. apply N, Hz; lia.
  Qed.
  Lemma k0_nrm i : (i < n)%nat -> nrm (nth i K0 []) = s i / sqrt (vol n c s (c i)) /\ 0 < nrm (nth i K0 []).
  Proof.
    intros Hi. pose proof (@vol_pos n c s s_pos i Hi) as P. pose proof (sqrt_lt_R0 _ P) as P2. pose proof (s_pos Hi) as P3.
    assert (Q : nrm (nth i K0 []) = s i / sqrt (vol n c s (c i))).
    { unfold nrm. rewrite k0_gram, Nat.eqb_refl by auto. rewrite sqrt_div_alt by auto. rewrite sqrt_square by lra. reflexivity. }
    split; auto. rewrite Q. apply Rdiv_lt_0_compat; auto.
  Qed.
  Lemma normalized_some : exists K, normalize_l2_rw K0 = Some K /\ shape n k K /\
    forall i j, (i < n)%nat -> (j < n)%nat -> rdot (nth i K []) (nth j K []) = if Nat.eqb (c i) (c j) then 1 else 0.
  Proof.
    assert (B : forallb (fun r => negb (Reqb (nrm r) 0)) K0 = true).
    { apply forallb_forall. intros r Hr. destruct (In_nth _ _ ([] : vec) Hr) as [i [Li Ei]]. destruct k0_shape as [Ln _]. rewrite Ln in Li.
      destruct (k0_nrm Li) as [_ P]. rewrite Ei in P. destruct (Reqb_spec (nrm r) 0); auto. lra. }
    unfold normalize_l2_rw. rewrite B. eexists. split; [reflexivity|]. split.
    - destruct k0_shape as [Ln Lr]. split; [now rewrite map_length|]. intros r Hr. apply in_map_iff in Hr. destruct Hr as [r0 [<- H0]]. rewrite map_length. auto.
    - intros i j Hi Hj. destruct k0_shape as [Ln Lr].
      rewrite !(nth_map_lt (fun r => map (fun a => a / nrm r) r) K0 _ ([] : vec)) by lia.
      set (x := nth i K0 []). set (y := nth j K0 []).
      assert (Lx : length x = k) by (apply Lr, nth_In; lia). assert (Ly : length y = k) by (apply Lr, nth_In; lia).
      rewrite (@rdot_sum k) by now rewrite map_length.
      rewrite (rsum_ext _ (fun t => / (nrm x * nrm y) * (x@t * y@t))).
      + rewrite rsum_mul_l. rewrite <- (@rdot_sum k x y) by auto. unfold x, y.
        destruct (k0_nrm Hi) as [Ni Pi]. destruct (k0_nrm Hj) as [Nj Pj]. rewrite k0_gram by auto.
        destruct (Nat.eqb_spec (c i) (c j)) as [E|]; [|ring]. rewrite Ni, Nj, E.
        pose proof (@vol_pos n c s s_pos j Hj) as P. pose proof (sqrt_lt_R0 _ P) as P2. pose proof (s_pos Hi) as P3. pose proof (s_pos Hj) as P4.
        rewrite <- (sqrt_sqrt (vol n c s (c j))) at 3 by lra. field. lra.
      + intros t Ht. destruct (k0_nrm Hi) as [_ Pi]. destruct (k0_nrm Hj) as [_ Pj].
        rewrite !(nth_map_lt (fun a => a / nrm _) _ _ 0) by lia. fold x in Pi. fold y in Pj. field. lra.
  Qed.
End Fast.

Lemma fast_recovers n k W M c (lansvd : mat -> nat -> mat * vec * mat) keys U sv V :
  normalized_symmetric_w n W = Some M -> symmetric n W -> nonnegative n W -> components n W k c ->
  (forall i, (i < n)%nat -> ~ two_colourable n W i) ->
  lansvd M (5 * k)%nat = (U, sv, V) -> leading_right_vectors n k M sv V ->
  (forall idx, In idx keys -> picks n k idx) ->
  (exists idx, In idx keys /\ picks_every_component n k c idx) -> (0 < n)%nat ->
  exists sol, normalized_symmetric_fast_k lansvd keys n W k = Some sol /\ labels_components n W (sp_assignment sol) /\ sp_num_clusters sol = k.
Proof.
  intros HW Sy Nn HC Hbip HL [U' [T [VH [HS HV]]]] Hkeys Hpick Hn.
  destruct (@normalized_some n k W M c HW Sy Nn HC Hbip U' VH T HS V (fun j Hj => proj2 (HV j Hj))) as [K [HK [ShK GK]]].
  pose proof (proj1 HC) as C1. pose proof (C1 _ Hn) as Hk0.
  assert (Hsame : forall i j, (i < n)%nat -> (j < n)%nat -> (row K i = row K j <-> c i = c j)).
  { intros i j Hi Hj. unfold row. split.
    - intros E. pose proof (GK i j Hi Hj) as G. rewrite E, GK, Nat.eqb_refl in G by auto. destruct (Nat.eqb_spec (c i) (c j)); auto. lra.
    - intros E. apply nrm_zero_eq; [now rewrite !(shape_row ShK)|].
      transitivity (sqrt 0); [|apply sqrt_0]. unfold nrm. f_equal. etransitivity; [apply (@dist_gram _ _ k); now apply (shape_row ShK)|].
      rewrite !GK, E, !Nat.eqb_refl by auto. ring. }
  assert (Hne : keys <> []) by (destruct Hpick as [idx [Hin _]]; intros E; rewrite E in Hin; destruct Hin).
  unfold normalized_symmetric_fast_k. rewrite HW, HL, HK. unfold cluster_rows.
  destruct (@kmeans_total n k k K keys (1/100000) 100 100 ShK Hne Hkeys Hn ltac:(lia) ltac:(lia)) as [i [s HR]].
  rewrite HR. eexists. split; [reflexivity|]. cbn [sp_assignment sp_num_clusters].
  destruct (@kmeans_recovers n k k _ c keys _ _ _ ShK Hsame Hn C1 Hkeys i s Hpick HR) as [L R].
  split; [|auto]. split; auto. intros p q Hp Hq. rewrite R by auto. symmetry. apply HC; auto.
Qed.
