From Coq Require Import List Arith Bool Lia Reals Lra Psatz Permutation Ratan.
From Verif Require Import Scalar Vec RVec RMat Loop KMeansModel KMeansProofs ClusterModel ClusterSpec ClusterProofs SscModel
  SortedL1Model SortedL1Proofs OptSpec OptModel OptProofs2 NeighbourModel NeighbourSpec.
Import ListNotations.
Set Implicit Arguments.
Local Open Scope R_scope.

(** *** angles *)
Definition cosine (x y : vec) : R := rdot x y / (nrm x * nrm y).
Lemma cosine_bound x y : nrm x <> 0 -> nrm y <> 0 -> -1 <= cosine x y <= 1.
Proof.
  intros Hx Hy. pose proof (nrm_pos x). pose proof (nrm_pos y).
  assert (P : 0 < nrm x * nrm y) by (apply Rmult_lt_0_compat; lra).
  pose proof (cauchy x y) as C. unfold cosine. apply Rabs_le_between in C || apply Rabs_def2 in C || idtac.
  assert (C' : - (nrm x * nrm y) <= rdot x y <= nrm x * nrm y).
  { pose proof (cauchy x y) as C0. revert C0. unfold Rabs. destruct (Rcase_abs (rdot x y)); lra. }
  split.
  - apply Rmult_le_reg_r with (nrm x * nrm y); auto. unfold Rdiv. rewrite Rmult_assoc, Rinv_l by lra. lra.
  - apply Rmult_le_reg_r with (nrm x * nrm y); auto. unfold Rdiv. rewrite Rmult_assoc, Rinv_l by lra. lra.
Qed.
Lemma angles_len X : length (angles_between_points X) = length X.
Proof. unfold angles_between_points, unit_cols. now rewrite !map_length. Qed.
Lemma angles_shape X : shape (length X) (length X) (angles_between_points X).
Proof.
  split; [apply angles_len|]. intros r. unfold angles_between_points, unit_cols. rewrite map_map, in_map_iff.
  intros [u [<- _]]. now rewrite !map_length.
Qed.
Lemma angles_ent X i j : (i < length X)%nat -> (j < length X)%nat -> nrm (nth i X []) <> 0 -> nrm (nth j X []) <> 0 ->
  ent (angles_between_points X) i j = rad2deg (acos (cosine (nth i X []) (nth j X []))).
Proof.
  intros Hi Hj Ni Nj. unfold ent, angles_between_points, unit_cols.
  change vec with (list R) in *. change mat with (list (list R)) in *. rewrite !map_map.
  rewrite (Vec.nth_map_lt _ X []) by auto. rewrite !map_map. rewrite (Vec.nth_map_lt _ X []) by auto.
  rewrite rdot_scale_l, rdot_scale_r.
  replace (/ nrm (nth i X []) * (/ nrm (nth j X []) * rdot (nth i X []) (nth j X []))) with (cosine (nth i X []) (nth j X []))
    by (unfold cosine; field; auto).
  rewrite Rmin_left; auto. now apply cosine_bound.
Qed.
Lemma rad2deg_bound a : 0 <= a <= PI -> 0 <= rad2deg a <= 180.
Proof.
  intros [H0 H1]. pose proof PI_RGT_0 as P. unfold rad2deg. split.
  - apply Rmult_le_pos; auto. apply Rlt_le, Rdiv_lt_0_compat; lra.
  - apply Rle_trans with (PI * (180 / PI)); [|right; field; lra]. apply Rmult_le_compat_r; auto. apply Rlt_le, Rdiv_lt_0_compat; lra.
Qed.
Lemma rad2deg_id a : rad2deg a * (PI / 180) = a.
Proof. unfold rad2deg. field. apply PI_neq0. Qed.
Lemma cosine_mul x y : nrm x <> 0 -> nrm y <> 0 -> cosine x y * (nrm x * nrm y) = rdot x y.
Proof. intros Hx Hy. unfold cosine. field. auto. Qed.
Lemma cosine_sym x y : cosine x y = cosine y x.
Proof. unfold cosine. rewrite rdot_sym. now rewrite (Rmult_comm (nrm x)). Qed.

Lemma angles_spec X : (forall x, In x X -> nrm x <> 0) ->
  let A := angles_between_points X in
  shape (length X) (length X) A /\
  forall i j, (i < length X)%nat -> (j < length X)%nat ->
    ent A i j = ent A j i /\ 0 <= ent A i j <= 180 /\
    cos (ent A i j * (PI / 180)) * (nrm (nth i X []) * nrm (nth j X [])) = rdot (nth i X []) (nth j X []).
Proof.
  intros HX A. split; [apply angles_shape|]. intros i j Hi Hj.
  assert (Ni : nrm (nth i X []) <> 0) by (apply HX, nth_In; auto).
  assert (Nj : nrm (nth j X []) <> 0) by (apply HX, nth_In; auto).
  unfold A. rewrite !angles_ent by auto. split; [|split].
  - now rewrite cosine_sym.
  - apply rad2deg_bound, acos_bound.
  - assert (Hdeg : forall a, rad2deg a * (PI / 180) = a) by apply rad2deg_id.
    rewrite Hdeg, cos_acos by now apply cosine_bound. now apply cosine_mul.
Qed.
Lemma cosine_scale c x : nrm x <> 0 -> c <> 0 -> cosine x (rscale c x) = c / Rabs c.
Proof.
  intros Hx Hc. unfold cosine. rewrite rdot_scale_r, nrm_scale, <- nrm_sq. field. split; auto using Rabs_no_R0.
Qed.
Lemma angle_pos X i j c : (i < length X)%nat -> (j < length X)%nat -> nrm (nth i X []) <> 0 -> 0 < c ->
  nth j X [] = rscale c (nth i X []) -> ent (angles_between_points X) i j = 0.
Proof.
  intros Hi Hj Ni Hc E.
  assert (Nj : nrm (nth j X []) <> 0) by (rewrite E, nrm_scale, Rabs_right by lra; nra || (apply Rmult_integral_contrapositive_currified; lra)).
  rewrite angles_ent by auto. rewrite E, cosine_scale, Rabs_right by (auto; lra).
  replace (c / c) with 1 by (field; lra). rewrite acos_1. unfold rad2deg. ring.
Qed.
Lemma angle_neg X i j c : (i < length X)%nat -> (j < length X)%nat -> nrm (nth i X []) <> 0 -> c < 0 ->
  nth j X [] = rscale c (nth i X []) -> ent (angles_between_points X) i j = 180.
Proof.
  intros Hi Hj Ni Hc E.
  assert (Nj : nrm (nth j X []) <> 0) by (rewrite E, nrm_scale, Rabs_left by lra; apply Rmult_integral_contrapositive_currified; lra).
  rewrite angles_ent by auto. rewrite E, cosine_scale, Rabs_left by (auto; lra).
  replace (c / - c) with (- (1)) by (field; lra). rewrite acos_opp, acos_1. unfold rad2deg. field. apply PI_neq0.
Qed.
(** equality in Cauchy-Schwarz: only positive multiples are at angle zero *)
Lemma angle_zero_parallel x y : nrm x <> 0 -> nrm y <> 0 -> length x = length y -> cosine x y = 1 ->
  y = rscale (nrm y / nrm x) x.
Proof.
  intros Nx Ny L C. apply rdot_sub_eq0; [now rewrite rscale_len|].
  assert (D : rdot x y = nrm x * nrm y).
  { unfold cosine in C. apply (f_equal (fun t => t * (nrm x * nrm y))) in C. rewrite Rmult_1_l in C. rewrite <- C. field. auto. }
  rewrite rdot_sub_l, !rdot_sub_r by (rewrite ?rscale_len; auto). rewrite !rdot_scale_l, !rdot_scale_r.
  rewrite (rdot_sym y x), D, <- !nrm_sq. field. auto.
Qed.
Lemma angle_zero X i j : (i < length X)%nat -> (j < length X)%nat -> nrm (nth i X []) <> 0 -> nrm (nth j X []) <> 0 ->
  length (nth i X []) = length (nth j X []) -> ent (angles_between_points X) i j = 0 ->
  exists c, 0 < c /\ nth j X [] = rscale c (nth i X []).
Proof.
  intros Hi Hj Ni Nj L E. rewrite angles_ent in E by auto.
  assert (E' : acos (cosine (nth i X []) (nth j X [])) = 0).
  { unfold rad2deg in E. apply Rmult_integral in E. destruct E as [E|E]; auto. exfalso.
    pose proof PI_RGT_0. assert (0 < 180 / PI) by (apply Rdiv_lt_0_compat; lra). lra. }
  assert (C : cosine (nth i X []) (nth j X []) = 1).
  { rewrite <- (cos_acos (cosine _ _)) by now apply cosine_bound. rewrite E'. apply cos_0. }
  exists (nrm (nth j X []) / nrm (nth i X [])). split; [|now apply angle_zero_parallel].
  pose proof (nrm_pos (nth i X [])). pose proof (nrm_pos (nth j X [])). apply Rdiv_lt_0_compat; lra.
Qed.

(** *** blocks *)
Lemma total_nsum l : total l = nsum l. Proof. induction l; simpl; auto. Qed.
Lemma concat_blocks {A} (f : nat -> list A) sizes d : (forall k, (k < length sizes)%nat -> length (f k) = nth k sizes 0%nat) ->
  length (concat (map f (seq 0 (length sizes)))) = total sizes /\
  forall k j, (k < length sizes)%nat -> (j < nth k sizes 0)%nat ->
    nth (total (firstn k sizes) + j) (concat (map f (seq 0 (length sizes)))) d = nth j (f k) d.
Proof.
  revert f. induction sizes as [|z sizes IH]; intros f Hf; [split; auto; simpl; intros; lia|].
  cbn [length seq map concat]. rewrite <- seq_shift, map_map.
  assert (L0 : length (f 0%nat) = z) by (apply (Hf 0%nat); simpl; lia).
  destruct (IH (fun k => f (S k))) as [L N]. { intros k Hk. apply (Hf (S k)). simpl; lia. }
  split; [rewrite app_length, L, L0; reflexivity|].
  intros [|k] j Hk Hj; simpl in Hk, Hj |- *.
  - rewrite app_nth1; auto. now rewrite L0.
  - rewrite app_nth2 by (rewrite L0; lia). rewrite L0.
    replace (z + total (firstn k sizes) + j - z)%nat with (total (firstn k sizes) + j)%nat by lia. apply N; lia.
Qed.
Lemma starts_eq sizes k : (k < length sizes)%nat -> starts sizes k = total (firstn k sizes).
Proof. intros H. unfold starts. rewrite starts_nth by auto. symmetry. apply total_nsum. Qed.
Lemma ends_eq sizes k : (k < length sizes)%nat -> ends sizes k = (total (firstn k sizes) + nth k sizes 0)%nat.
Proof. intros H. unfold ends. now rewrite ends_nth by auto. Qed.
Lemma block_le sizes : forall k, (k < length sizes)%nat -> (total (firstn k sizes) + nth k sizes 0 <= total sizes)%nat.
Proof. induction sizes as [|z l IH]; intros [|k] H; simpl in *; try lia. specialize (IH k ltac:(lia)). lia. Qed.
Lemma cluster_lt sizes k s : in_cluster sizes k s -> (s < total sizes)%nat.
Proof. intros [H1 H2]. pose proof (block_le sizes H1). lia. Qed.
Lemma cluster_off sizes k s : in_cluster sizes k s -> exists j, s = (total (firstn k sizes) + j)%nat /\ (j < nth k sizes 0)%nat.
Proof. intros [H1 H2]. exists (s - total (firstn k sizes))%nat. lia. Qed.
Lemma tab_nil {A} n (f : nat -> A) : (0 < n)%nat -> tab n f <> [].
Proof. intros H E. apply (f_equal (@length A)) in E. rewrite tab_length in E. simpl in E. lia. Qed.

Lemma vmin_tab n (f : nat -> R) : (0 < n)%nat ->
  let a := argmin (tab n f) in
  (a < n)%nat /\ vmin (tab n f) = f a /\ forall i, (i < n)%nat -> f a <= f i.
Proof.
  intros H a. destruct (argmin_spec (tab_nil f H)) as [H1 H2]. rewrite tab_length in *. fold a in H1, H2.
  split; [auto|]. split. { unfold vmin. fold a. now rewrite nth_tab. }
  intros i Hi. specialize (H2 i Hi). now rewrite !nth_tab in H2 by auto.
Qed.

Lemma inside_gen A sizes k s : no_empty sizes = true -> length A = total sizes -> in_cluster sizes k s ->
  exists ms ns, min_angles_inside_cluster A sizes = Some ms /\ nearest_neighbors_inside_cluster A sizes = Some ns /\
    length ms = total sizes /\ length ns = total sizes /\
    in_cluster sizes k (nth s ns 0%nat) /\
    ms@s = ent (set_diagonal A 10000) (nth s ns 0%nat) s /\
    forall t, in_cluster sizes k t -> ms@s <= ent (set_diagonal A 10000) t s.
Proof.
  intros NE L Hs. unfold min_angles_inside_cluster, nearest_neighbors_inside_cluster. rewrite NE.
  set (B := set_diagonal A 10000). eexists _, _. split; [reflexivity|]. split; [reflexivity|].
  assert (LB : forall k, (k < length sizes)%nat -> length (inside_cols B (starts sizes k) (ends sizes k)) = nth k sizes 0%nat).
  { intros k' Hk'. unfold inside_cols. rewrite tab_length, starts_eq, ends_eq by auto. lia. }
  destruct (@concat_blocks R (fun k => map vmin (inside_cols B (starts sizes k) (ends sizes k))) sizes 0) as [L1 N1].
  { intros k' Hk'. rewrite map_length. auto. }
  destruct (@concat_blocks nat (fun k => map (fun c => argmin c + starts sizes k)%nat (inside_cols B (starts sizes k) (ends sizes k))) sizes 0%nat) as [L2 N2].
  { intros k' Hk'. rewrite map_length. auto. }
  split; [exact L1|]. split; [exact L2|]. cbv beta in N1, N2.
  destruct (cluster_off Hs) as [j [-> Hj]]. destruct Hs as [Hk _]. rewrite N1, N2 by auto.
  rewrite (@Vec.nth_map_lt vec nat _ _ j [] 0%nat) by (rewrite LB; auto).
  rewrite (@Vec.nth_map_lt vec R _ _ j [] 0) by (rewrite LB; auto).
  unfold inside_cols at 1 2 3 4. rewrite starts_eq, ends_eq by auto. set (b := total (firstn k sizes)).
  replace (b + nth k sizes 0 - b)%nat with (nth k sizes 0%nat) by lia.
  rewrite !nth_tab by auto.
  destruct (@vmin_tab (nth k sizes 0%nat) (fun i => ent B (b + i) (b + j))) as [V1 [V2 V3]]; [lia|].
  rewrite V2. set (a := argmin (tab (nth k sizes 0%nat) (fun i => ent B (b + i) (b + j)))) in *.
  split; [split; auto; fold b; lia|]. split; [now rewrite (Nat.add_comm a b)|].
  intros t Ht. destruct (cluster_off Ht) as [i [-> Hi]]. apply V3; auto.
Qed.
Lemma set_diag_ent A v i j : (i < length A)%nat -> (j < length A)%nat ->
  ent (set_diagonal A v) i j = if (i =? j)%nat then v else ent A i j.
Proof. intros Hi Hj. unfold ent, set_diagonal. now rewrite !nth_tab by auto. Qed.

Lemma inside_spec A sizes k s t : no_empty sizes = true -> length A = total sizes -> in_cluster sizes k s ->
  in_cluster sizes k t -> t <> s -> (forall i j, ent A i j < 10000) ->
  exists ms ns, min_angles_inside_cluster A sizes = Some ms /\ nearest_neighbors_inside_cluster A sizes = Some ns /\
    length ms = total sizes /\ length ns = total sizes /\
    in_cluster sizes k (nth s ns 0%nat) /\ nth s ns 0%nat <> s /\
    ms@s = ent A (nth s ns 0%nat) s /\
    forall u, in_cluster sizes k u -> u <> s -> ms@s <= ent A u s.
Proof.
  intros NE L Hs Ht Hts HA. destruct (@inside_gen A sizes k s NE L Hs) as [ms [ns [E1 [E2 [L1 [L2 [I1 [V M]]]]]]]].
  assert (lt : forall u, in_cluster sizes k u -> (u < length A)%nat) by (intros u Hu; rewrite L; eapply cluster_lt; eauto).
  exists ms, ns. rewrite set_diag_ent in V by auto.
  assert (Hne : nth s ns 0%nat <> s).
  { intros E. rewrite E, Nat.eqb_refl in V. specialize (M t Ht). rewrite set_diag_ent in M by auto.
    destruct (Nat.eqb_spec t s); [contradiction|]. specialize (HA t s). lra. }
  destruct (Nat.eqb_spec (nth s ns 0%nat) s); [contradiction|].
  repeat (split; [assumption|]). intros u Hu Hus. specialize (M u Hu). rewrite set_diag_ent in M by auto.
  destruct (Nat.eqb_spec u s); [contradiction|]. auto.
Qed.
Lemma inside_single A sizes k s : no_empty sizes = true -> length A = total sizes -> in_cluster sizes k s -> nth k sizes 0%nat = 1%nat ->
  exists ms ns, min_angles_inside_cluster A sizes = Some ms /\ nearest_neighbors_inside_cluster A sizes = Some ns /\
    ms@s = 10000 /\ nth s ns 0%nat = s.
Proof.
  intros NE L Hs H1. destruct (@inside_gen A sizes k s NE L Hs) as [ms [ns [E1 [E2 [L1 [L2 [I1 [V M]]]]]]]].
  assert (E : nth s ns 0%nat = s) by (destruct I1, Hs; lia).
  exists ms, ns. repeat (split; [assumption|]). split; auto.
  rewrite V, E, set_diag_ent, Nat.eqb_refl; auto; rewrite L; eapply cluster_lt; eauto.
Qed.
Lemma no_empty_false sizes : In 0%nat sizes -> no_empty sizes = false.
Proof.
  intros H. unfold no_empty. destruct (forallb _ sizes) eqn:E; auto. rewrite forallb_forall in E. now specialize (E _ H).
Qed.
Lemma no_empty_true sizes : (forall z, In z sizes -> z <> 0%nat) -> no_empty sizes = true.
Proof.
  intros H. unfold no_empty. apply forallb_forall. intros z Hz. specialize (H z Hz). destruct z; auto.
Qed.

Lemma outside_gen A sizes k s : length A = total sizes -> in_cluster sizes k s ->
  let mo := min_angles_outside_cluster A sizes in let on := nearest_neighbors_outside_cluster A sizes in
  let f := fun j => if (total (firstn k sizes) <=? j)%nat && (j <? total (firstn k sizes) + nth k sizes 0)%nat then 10000 else ent A s j in
  length mo = total sizes /\ length on = total sizes /\ (nth s on 0 < total sizes)%nat /\
  nth s on 0%nat = argmin (tab (total sizes) f) /\
  mo@s = f (nth s on 0%nat) /\ forall j, (j < total sizes)%nat -> mo@s <= f j.
Proof.
  intros L Hs mo on f. subst mo on. unfold min_angles_outside_cluster, nearest_neighbors_outside_cluster.
  assert (LB : forall k, (k < length sizes)%nat -> length (outside_rows A (starts sizes k) (ends sizes k)) = nth k sizes 0%nat).
  { intros k' Hk'. unfold outside_rows. rewrite tab_length, starts_eq, ends_eq by auto. lia. }
  destruct (@concat_blocks R (fun k => map vmin (outside_rows A (starts sizes k) (ends sizes k))) sizes 0) as [L1 N1].
  { intros k' Hk'. rewrite map_length. auto. }
  destruct (@concat_blocks nat (fun k => map argmin (outside_rows A (starts sizes k) (ends sizes k))) sizes 0%nat) as [L2 N2].
  { intros k' Hk'. rewrite map_length. auto. }
  split; [exact L1|]. split; [exact L2|]. cbv beta in N1, N2.
  pose proof (cluster_lt Hs) as HsT.
  destruct (cluster_off Hs) as [j [-> Hj]]. destruct Hs as [Hk _]. rewrite N1, N2 by auto.
  rewrite (@Vec.nth_map_lt vec nat _ _ j [] 0%nat) by (rewrite LB; auto).
  rewrite (@Vec.nth_map_lt vec R _ _ j [] 0) by (rewrite LB; auto).
  unfold outside_rows. rewrite starts_eq, ends_eq by auto. set (b := total (firstn k sizes)) in *.
  replace (b + nth k sizes 0 - b)%nat with (nth k sizes 0%nat) by lia.
  rewrite !nth_tab by auto. rewrite L. fold f.
  destruct (@vmin_tab (total sizes) f) as [V1 [V2 V3]]; [lia|].
  change (fun j0 => if (b <=? j0)%nat && (j0 <? b + nth k sizes 0)%nat then 10000 else ent A (b + j) j0) with f.
  rewrite V2. auto.
Qed.
Lemma in_cluster_b sizes k t : (k < length sizes)%nat ->
  ((total (firstn k sizes) <=? t)%nat && (t <? total (firstn k sizes) + nth k sizes 0)%nat = true <-> in_cluster sizes k t).
Proof.
  intros Hk. rewrite andb_true_iff, Nat.leb_le, Nat.ltb_lt. unfold in_cluster. tauto.
Qed.
Lemma outside_spec A sizes k s t : length A = total sizes -> in_cluster sizes k s ->
  (t < total sizes)%nat -> ~ in_cluster sizes k t -> (forall i j, ent A i j < 10000) ->
  let mo := min_angles_outside_cluster A sizes in let on := nearest_neighbors_outside_cluster A sizes in
  length mo = total sizes /\ length on = total sizes /\
  (nth s on 0 < total sizes)%nat /\ ~ in_cluster sizes k (nth s on 0%nat) /\
  mo@s = ent A s (nth s on 0%nat) /\
  forall u, (u < total sizes)%nat -> ~ in_cluster sizes k u -> mo@s <= ent A s u.
Proof.
  intros L Hs Ht Hn HA mo on. assert (Hk : (k < length sizes)%nat) by apply Hs.
  destruct (@outside_gen A sizes k s L Hs) as [L1 [L2 [I1 [_ [V M]]]]]. fold mo on in L1, L2, I1, V, M.
  assert (F : forall u, ~ in_cluster sizes k u ->
    (if (total (firstn k sizes) <=? u)%nat && (u <? total (firstn k sizes) + nth k sizes 0)%nat then 10000 else ent A s u) = ent A s u).
  { intros u Hu. match goal with |- (if ?c then _ else _) = _ => destruct c eqn:E end; [|reflexivity]. exfalso. apply Hu. now apply (in_cluster_b sizes _ Hk). }
  assert (Hout : ~ in_cluster sizes k (nth s on 0%nat)).
  { intros Hin. pose proof (proj2 (in_cluster_b sizes _ Hk) Hin) as Hb. rewrite Hb in V.
    specialize (M t Ht). cbv beta in M. rewrite F in M by auto. specialize (HA s t). lra. }
  split; [auto|]. split; [auto|]. split; [auto|]. split; [auto|].
  split; [rewrite V; apply F; auto|]. intros u Hu Hnu. specialize (M u Hu). cbv beta in M. now rewrite F in M.
Qed.

(** *** sorted neighbours *)
Lemma argsort_head x : x <> [] -> exists h l, argsort x = h :: l /\ (h < length x)%nat /\
  (forall i, (i < length x)%nat -> x@h <= x@i) /\ (forall i, (i < length x)%nat -> x@i = x@h -> (h <= i)%nat).
Proof.
  intros Hx.
  assert (G : forall n b, (0 < n)%nat -> exists h l, fold_right (ins_idx x) [] (seq b n) = h :: l /\ (b <= h < b + n)%nat /\
    (forall i, (b <= i < b + n)%nat -> x@h <= x@i) /\ (forall i, (b <= i < b + n)%nat -> x@i = x@h -> (h <= i)%nat)).
  { induction n as [|n IH]; intros b Hn; [lia|]. cbn [seq fold_right].
    destruct n as [|n].
    - cbn [seq fold_right ins_idx]. exists b, []. split; auto. split; [lia|]. split; intros i Hi; replace i with b by lia; auto; lra.
    - destruct (IH (S b) ltac:(lia)) as [h [l [E [H1 [H2 H3]]]]]. rewrite E. cbn [ins_idx].
      destruct (Rleb_spec (x@b) (x@h)) as [H|H].
      + exists b, (h :: l). split; auto. split; [lia|]. split.
        * intros i Hi. destruct (Nat.eq_dec i b) as [->|Hib]; [lra|]. specialize (H2 i ltac:(lia)). lra.
        * intros i Hi _. lia.
      + exists h, (ins_idx x b l). split; auto. split; [lia|]. split.
        * intros i Hi. destruct (Nat.eq_dec i b) as [->|Hib]; [lra|]. apply H2. lia.
        * intros i Hi Ei. destruct (Nat.eq_dec i b) as [->|Hib]; [lra|]. apply H3; auto; lia. }
  destruct (G (length x) 0%nat) as [h [l [E [H1 [H2 H3]]]]]; [destruct x; [congruence|simpl; lia]|].
  exists h, l. split; auto. split; [lia|]. split; intros i Hi; [apply H2|apply H3]; lia.
Qed.
Lemma sorted_row n A s : shape n n A -> (s < n)%nat -> nth s (sorted_neighbors A) [] = skipn 1 (argsort (nth s A [])).
Proof. intros [L _] Hs. unfold sorted_neighbors. apply (@Vec.nth_map_lt vec (list nat) (fun r => skipn 1 (argsort r)) A s [] []). change vec with (list R) in *. now rewrite L. Qed.
Lemma sorted_spec n A s : shape n n A -> (s < n)%nat -> (forall t, (t < n)%nat -> t <> s -> ent A s s < ent A s t) ->
  let l := nth s (sorted_neighbors A) [] in
  Permutation (s :: l) (seq 0 n) /\
  forall p q, (p <= q < length l)%nat -> ent A s (nth p l 0%nat) <= ent A s (nth q l 0%nat).
Proof.
  intros HS Hs Hmin l. unfold l. rewrite (sorted_row HS Hs). remember (nth s A []) as r eqn:Er.
  assert (Ent : forall t, ent A s t = r@t) by (intros t; rewrite Er; reflexivity).
  assert (Lr : length r = n) by (rewrite Er; exact (shape_row HS Hs)). clear Er.
  assert (Hr : r <> []) by (intros E; rewrite E in Lr; simpl in Lr; lia).
  destruct (argsort_head Hr) as [h [m [E [H1 [H2 _]]]]].
  assert (Eh : h = s).
  { destruct (Nat.eq_dec h s); auto. specialize (Hmin h ltac:(lia) n0). specialize (H2 s ltac:(lia)). rewrite !Ent in Hmin. lra. }
  subst h. rewrite E. cbn [skipn]. split.
  - rewrite <- E, argsort_perm. now rewrite Lr.
  - pose proof (argsort_gather r) as G. pose proof (rsort_asc r) as As. rewrite <- G, E in As. cbn [gather map] in As.
    apply ascending_inv in As. destruct As as [As _]. intros p q Hpq. unfold ascending in As. rewrite !Ent.
    assert (Em : forall i, (i < length m)%nat -> (map (fun i => r@i) m)@i = r@(nth i m 0%nat)) by (intros i Hi; apply (@Vec.nth_map_lt nat R (fun i => r@i) m i 0%nat 0); auto).
    rewrite <- !Em by lia. apply As; rewrite ?map_length; lia.
Qed.
Lemma sorted_tie n A i j : shape n n A -> (i < j)%nat -> (j < n)%nat -> ent A j i = ent A j j ->
  In j (nth j (sorted_neighbors A) []).
Proof.
  intros HS Hij Hj Et. rewrite (sorted_row HS Hj). remember (nth j A []) as r eqn:Er.
  assert (Ent : forall t, ent A j t = r@t) by (intros t; rewrite Er; reflexivity).
  assert (Lr : length r = n) by (rewrite Er; exact (shape_row HS Hj)). clear Er. rewrite !Ent in Et.
  assert (Hr : r <> []) by (intros E; rewrite E in Lr; simpl in Lr; lia).
  destruct (argsort_head Hr) as [h [m [E [H1 [H2 H3]]]]]. rewrite E. cbn [skipn].
  assert (Hin : In j (h :: m)). { rewrite <- E. apply (Permutation_in j (Permutation_sym (argsort_perm r))). apply in_seq. lia. }
  destruct Hin as [->|]; auto. exfalso. specialize (H3 i ltac:(lia) Et). lia.
Qed.

(** *** positions *)
Lemma positions_spec labels N s : (s < length labels)%nat ->
  let l := nth s N [] in let p := nth s (inn_positions labels N) 0%nat in
  In (nth s labels 0%nat) l ->
  (p < length l)%nat /\ nth p l 0%nat = nth s labels 0%nat /\ forall q, (q < p)%nat -> nth q l 0%nat <> nth s labels 0%nat.
Proof.
  intros Hs l p Hin. unfold inn_positions in p. subst p. rewrite nth_tab by auto. fold l. unfold argmax_bool.
  set (a := nth s labels 0%nat) in *. pose proof (first_true_spec (map (fun x => (x =? a)%nat) l) 0) as F.
  destruct (first_true 0 _) as [k|].
  - destruct F as [i [-> [F1 F2]]]. simpl. rewrite nth_error_map in F1.
    destruct (nth_error l i) as [v|] eqn:Ev; [|discriminate]. simpl in F1. injection F1 as F1. apply Nat.eqb_eq in F1. subst v.
    split; [apply nth_error_Some; congruence|]. split; [now apply nth_error_nth|].
    intros q Hq. specialize (F2 q Hq). rewrite nth_error_map in F2. destruct (nth_error l q) as [v|] eqn:Eq; [|discriminate].
    simpl in F2. injection F2 as F2. apply Nat.eqb_neq in F2. now rewrite (nth_error_nth _ _ _ Eq).
  - exfalso. apply In_nth_error in Hin. destruct Hin as [i Hi].
    specialize (F i true). rewrite nth_error_map, Hi in F. simpl in F. rewrite Nat.eqb_refl in F. specialize (F eq_refl). discriminate.
Qed.
Lemma positions_absent labels N s : (s < length labels)%nat -> ~ In (nth s labels 0%nat) (nth s N []) ->
  nth s (inn_positions labels N) 0%nat = 0%nat.
Proof.
  intros Hs Hn. unfold inn_positions. rewrite nth_tab by auto. unfold argmax_bool.
  pose proof (first_true_spec (map (fun x => (x =? nth s labels 0)%nat) (nth s N [])) 0) as F.
  destruct (first_true 0 _) as [k|]; auto. exfalso. apply Hn. destruct F as [i [-> [F1 _]]].
  rewrite nth_error_map in F1. destruct (nth_error (nth s N []) i) as [v|] eqn:Ev; [|discriminate].
  simpl in F1. injection F1 as F1. apply Nat.eqb_eq in F1. subst v. eapply nth_error_In; eauto.
Qed.
Lemma label_cluster sizes k s : in_cluster sizes k s -> nth s (labels_from_sizes sizes) 0%nat = k.
Proof.
  intros [Hk Hs]. unfold labels_from_sizes. rewrite (labels_block sizes 0 Hk (x := s)); auto.
  rewrite nsum_firstn_S, <- total_nsum by auto. lia.
Qed.
Lemma cluster_ex sizes : forall s, (s < total sizes)%nat -> exists k, in_cluster sizes k s.
Proof.
  induction sizes as [|z l IH]; intros s Hs; simpl in Hs; [lia|].
  destruct (lt_dec s z); [exists 0%nat; split; simpl; lia|].
  destruct (IH (s - z)%nat ltac:(lia)) as [k [H1 H2]]. exists (S k). split; simpl in *; lia.
Qed.
Lemma label_cluster_inv sizes k s : (s < total sizes)%nat -> nth s (labels_from_sizes sizes) 0%nat = k -> in_cluster sizes k s.
Proof. intros Hs E. destruct (cluster_ex sizes Hs) as [k' H]. rewrite (label_cluster H) in E. now subst. Qed.
Lemma labels_len sizes k : length (labels_from k sizes) = total sizes.
Proof. revert k. induction sizes as [|z l IH]; intros k; simpl; auto. now rewrite app_length, repeat_length, IH. Qed.

(** the first neighbour of the same cluster in the sorted list is a nearest one of the cluster *)
Lemma pipeline n A sizes k s t : shape n n A -> total sizes = n -> (forall z, In z sizes -> z <> 0%nat) ->
  (forall i j, ent A i j = ent A j i) ->
  in_cluster sizes k s -> in_cluster sizes k t -> t <> s -> (forall i j, ent A i j < 10000) ->
  (forall u, (u < n)%nat -> u <> s -> ent A s s < ent A s u) ->
  let N := sorted_neighbors A in
  let labels := labels_from_sizes sizes in
  let p := nth s (inn_positions labels (map (map (fun i => nth i labels 0%nat)) N)) 0%nat in
  let b := nth p (nth s N []) 0%nat in
  in_cluster sizes k b /\ b <> s /\
  (forall q, (q < p)%nat -> ~ in_cluster sizes k (nth q (nth s N []) 0%nat)) /\
  exists ms, min_angles_inside_cluster A sizes = Some ms /\ ent A s b = ms@s.
Proof.
  intros HS HT HZ Sym Hs Ht Hts HA Hmin N labels p b.
  assert (Hsn : (s < n)%nat) by (rewrite <- HT; eapply cluster_lt; eauto).
  assert (Htn : (t < n)%nat) by (rewrite <- HT; eapply cluster_lt; eauto).
  destruct (sorted_spec HS Hsn Hmin) as [P Asc]. fold N in P, Asc. set (l := nth s N []) in *.
  assert (Hlab : nth s (map (map (fun i => nth i labels 0%nat)) N) [] = map (fun i => nth i labels 0%nat) l).
  { apply (Vec.nth_map_lt _ _ []). unfold N, sorted_neighbors. rewrite map_length. destruct HS as [-> _]. auto. }
  assert (Hsl : (s < length labels)%nat) by (unfold labels, labels_from_sizes; rewrite labels_len; lia).
  assert (Hls : nth s labels 0%nat = k) by (apply label_cluster; auto).
  assert (Hb : forall i, In i l -> (i < n)%nat) by (intros i Hi; assert (H : In i (seq 0 n)) by (apply (Permutation_in i P); now right); apply in_seq in H; lia).
  assert (ND : ~ In s l). { assert (H : NoDup (s :: l)) by (apply (Permutation_NoDup (Permutation_sym P)), seq_NoDup). now inversion H. }
  assert (Htl : In t l). { assert (H : In t (s :: l)) by (apply (Permutation_in t (Permutation_sym P)), in_seq; lia). destruct H; [congruence|auto]. }
  pose proof (@positions_spec labels (map (map (fun i => nth i labels 0%nat)) N) s Hsl) as PS. cbv zeta in PS. fold p in PS.
  rewrite Hlab, Hls, map_length in PS. destruct PS as [P1 [P2 P3]].
  { apply in_map_iff. exists t. split; auto. apply label_cluster; auto. }
  rewrite (Vec.nth_map_lt _ _ 0%nat) in P2 by auto. fold b in P2.
  assert (Hbl : In b l) by (apply nth_In; auto).
  assert (Hbc : in_cluster sizes k b) by (apply label_cluster_inv; auto; rewrite HT; auto).
  assert (Hbs : b <> s) by (intros ->; contradiction).
  split; [auto|]. split; [auto|]. split.
  { intros q Hq Hc. apply (P3 q Hq). rewrite (Vec.nth_map_lt _ _ 0%nat) by lia. apply label_cluster; auto. }
  destruct (@inside_spec A sizes k s t) as [ms [ns [E1 [E2 [_ [_ [I1 [I2 [V M]]]]]]]]]; auto using no_empty_true.
  { destruct HS as [-> _]. auto. }
  exists ms. split; auto. apply Rle_antisym.
  - rewrite V. rewrite (Sym (nth s ns 0%nat) s). set (c := nth s ns 0%nat) in *.
    assert (Hcl : In c l). { assert (H : In c (s :: l)) by (apply (Permutation_in c (Permutation_sym P)), in_seq; pose proof (cluster_lt I1); lia). destruct H; [congruence|auto]. }
    destruct (In_nth _ _ 0%nat Hcl) as [q [Hq Eq]].
    assert (p <= q)%nat. { destruct (le_lt_dec p q); auto. exfalso. apply (P3 q l0). rewrite (Vec.nth_map_lt _ _ 0%nat) by lia. rewrite Eq. apply label_cluster; auto. }
    rewrite <- Eq. apply Asc. lia.
  - rewrite Sym. apply M; auto.
Qed.

Lemma angles_out X i j : (length X <= i)%nat \/ (length X <= j)%nat -> ent (angles_between_points X) i j = 0.
Proof.
  intros H. destruct (angles_shape X) as [L1 L2]. unfold ent.
  destruct (le_lt_dec (length X) i) as [Hi|Hi].
  - rewrite (nth_overflow (angles_between_points X)) by (change vec with (list R) in *; lia). now destruct j.
  - destruct H as [H|H]; [lia|]. apply nth_overflow.
    rewrite (shape_row (angles_shape X)) by auto. exact H.
Qed.
Lemma angles_all X : (forall x, In x X -> nrm x <> 0) ->
  (forall i j, ent (angles_between_points X) i j = ent (angles_between_points X) j i) /\
  (forall i j, ent (angles_between_points X) i j < 10000).
Proof.
  intros HX. destruct (@angles_spec X HX) as [_ H].
  assert (D : forall i j, ((length X <= i)%nat \/ (length X <= j)%nat) \/ ((i < length X)%nat /\ (j < length X)%nat)) by lia.
  split; intros i j; destruct (D i j) as [Ho|[Hi Hj]].
  - rewrite !angles_out; auto. tauto.
  - now destruct (H i j Hi Hj).
  - rewrite angles_out by auto. lra.
  - destruct (H i j Hi Hj) as [_ [B _]]. lra.
Qed.
(** a point's own angle is strictly the smallest unless another point is a positive multiple of it *)
Lemma angles_own X d s : (forall x, In x X -> nrm x <> 0 /\ length x = d) -> (s < length X)%nat ->
  (forall t c, (t < length X)%nat -> t <> s -> 0 < c -> nth t X [] <> rscale c (nth s X [])) ->
  forall u, (u < length X)%nat -> u <> s -> ent (angles_between_points X) s s < ent (angles_between_points X) s u.
Proof.
  intros HX Hs Hn u Hu Hus.
  assert (N : forall i, (i < length X)%nat -> nrm (nth i X []) <> 0) by (intros i Hi; apply HX, nth_In; auto).
  assert (Ls : forall i, (i < length X)%nat -> length (nth i X []) = d) by (intros i Hi; apply HX, nth_In; auto).
  rewrite (@angle_pos X s s 1); auto; try lra.
  2: { apply vec_eq; [now rewrite rscale_len|]. intros i Hi. rewrite rscale_nth. ring. }
  destruct (@angles_spec X) as [_ H]. { intros x Hx. now apply HX. }
  destruct (H s u Hs Hu) as [_ [[B _] _]]. destruct (Rle_lt_or_eq_dec _ _ B) as [B'|B']; auto. exfalso.
  destruct (@angle_zero X s u) as [c [Hc E]]; auto; [etransitivity; [apply Ls; auto|symmetry; apply Ls; auto]|].
  exact (Hn u c Hu Hus Hc E).
Qed.
Lemma pipeline_points X d sizes k s t : (forall x, In x X -> nrm x <> 0 /\ length x = d) -> total sizes = length X ->
  (forall z, In z sizes -> z <> 0%nat) ->
  in_cluster sizes k s -> in_cluster sizes k t -> t <> s ->
  (forall u c, (u < length X)%nat -> u <> s -> 0 < c -> nth u X [] <> rscale c (nth s X [])) ->
  let A := angles_between_points X in
  let N := sorted_neighbors A in
  let labels := labels_from_sizes sizes in
  let p := nth s (inn_positions labels (map (map (fun i => nth i labels 0%nat)) N)) 0%nat in
  let b := nth p (nth s N []) 0%nat in
  in_cluster sizes k b /\ b <> s /\
  (forall q, (q < p)%nat -> ~ in_cluster sizes k (nth q (nth s N []) 0%nat)) /\
  exists ms, min_angles_inside_cluster A sizes = Some ms /\ ent A s b = ms@s.
Proof.
  intros HX HT HZ Hs Ht Hts Hn A. destruct (@angles_all X) as [Sy Lt]; [intros x Hx; now apply HX|].
  apply (@pipeline (length X) A sizes k s t); auto.
  - apply angles_shape.
  - apply angles_own with (d := d); auto. rewrite <- HT. eapply cluster_lt; eauto.
Qed.
