(** * C73: spectral clustering *)
From Coq Require Import List Arith Bool Lia Reals Lra Psatz.
From Verif Require Import Vec RVec RMat Loop KMeansModel KMeansProofs ClusterModel SscModel SscSpec LaplacianProofs SpectralModel SpectralSpec SpectralProofs SpectralProofs2 SpectralProofs3.
Import ListNotations.
Set Implicit Arguments.
Local Open Scope R_scope.

Lemma rw_kernel n W L x : normalized_random_walk_laplacian n W = Some L -> symmetric n W -> nonnegative n W -> length x = n ->
  (mv L x = rzero n <-> forall i j, (i < n)%nat -> (j < n)%nat -> ent W i j <> 0 -> x@i = x@j).
Proof.
  intros HL Sy Nn Hx. rewrite <- (@lap_kernel n W x Sy Nn Hx).
  assert (Sh : shape n n L) by (eapply rw_shape; eauto). pose proof (lap_shape n W) as Sh2.
  split; intros E; (apply vec_eq; [rewrite mv_len, rzero_len; first [apply Sh|apply Sh2]|]); intros i Hi; rewrite mv_len in Hi; rewrite rzero_nth.
  - rewrite (proj1 Sh2) in Hi. rewrite <- (@rw_mv n W L HL x i Sy Hx Hi), E, rzero_nth. ring.
  - rewrite (proj1 Sh) in Hi. pose proof (@rw_mv n W L HL x i Sy Hx Hi) as K. rewrite E, rzero_nth in K.
    apply Rmult_integral in K as [K|K]; auto. exfalso. apply (@rw_nonzero n W L HL i Hi). now rewrite degrees_sym.
Qed.

(** The points handed to k-means: vertices of one component get the same
    point, of squared length 1 over the size of the component; vertices of
    different components get orthogonal points. *)
Theorem C73_unnormalized_embedding n k W c U S VH i j :
  symmetric n W -> nonnegative n W -> components n W k c ->
  is_svd n (unnormalized_laplacian n W) U S VH -> (i < n)%nat -> (j < n)%nat ->
  rdot (nth i (last_right_vectors n k VH) []) (nth j (last_right_vectors n k VH) []) =
    (if Nat.eqb (c i) (c j) then / INR (component_size n c (c j)) else 0) /\
  (nth i (last_right_vectors n k VH) [] = nth j (last_right_vectors n k VH) [] <-> connected n W i j).
Proof.
  exact (fun Sy Nn HC HS Hi Hj =>
    conj (@embed_gram n k W _ c U VH S (lap_shape n W) HC (fun x => @lap_kernel n W x Sy Nn) HS i j Hi Hj)
         (iff_trans (@embed_same n k W _ c U VH S (lap_shape n W) HC (fun x => @lap_kernel n W x Sy Nn) HS i j Hi Hj)
                    (iff_sym (proj2 (proj2 HC) i j Hi Hj)))).
Qed.
Print Assumptions C73_unnormalized_embedding.
Theorem C73_random_walk_embedding n k W L c U S VH i j :
  symmetric n W -> nonnegative n W -> components n W k c -> normalized_random_walk_laplacian n W = Some L ->
  is_svd n L U S VH -> (i < n)%nat -> (j < n)%nat ->
  rdot (nth i (last_right_vectors n k VH) []) (nth j (last_right_vectors n k VH) []) =
    (if Nat.eqb (c i) (c j) then / INR (component_size n c (c j)) else 0) /\
  (nth i (last_right_vectors n k VH) [] = nth j (last_right_vectors n k VH) [] <-> connected n W i j).
Proof.
  exact (fun Sy Nn HC HL HS Hi Hj =>
    conj (@embed_gram n k W L c U VH S (@rw_shape n W L HL) HC (fun x => @rw_kernel n W L x HL Sy Nn) HS i j Hi Hj)
         (iff_trans (@embed_same n k W L c U VH S (@rw_shape n W L HL) HC (fun x => @rw_kernel n W L x HL Sy Nn) HS i j Hi Hj)
                    (iff_sym (proj2 (proj2 HC) i j Hi Hj)))).
Qed.
Print Assumptions C73_random_walk_embedding.

(** With the number of components given, and one restart of k-means picking a
    vertex in each of them, the labels are the components. *)
Theorem C73_unnormalized_k n k W c svd keys U S VH :
  symmetric n W -> nonnegative n W -> components n W k c -> (0 < n)%nat ->
  svd (unnormalized_laplacian n W) = (U, S, VH) -> is_svd n (unnormalized_laplacian n W) U S VH ->
  (forall idx, In idx keys -> picks n k idx) ->
  (exists idx, In idx keys /\ picks_every_component n k c idx) ->
  exists sol, unnormalized_k svd keys n W k = Some sol /\ labels_components n W (sp_assignment sol) /\
    sp_num_clusters sol = k /\ sp_singular_values sol = S /\ sp_connectivity sol = S@(n - 2).
Proof.
  exact (fun Sy Nn HC Hn E HS Hk Hp =>
    @spectral_recovers n k W _ c U VH S (lap_shape n W) HC (fun x => @lap_kernel n W x Sy Nn) HS svd keys E Hk Hp Hn).
Qed.
Print Assumptions C73_unnormalized_k.
Theorem C73_random_walk_k n k W L c svd keys U S VH :
  symmetric n W -> nonnegative n W -> components n W k c -> (0 < n)%nat ->
  normalized_random_walk_laplacian n W = Some L -> svd L = (U, S, VH) -> is_svd n L U S VH ->
  (forall idx, In idx keys -> picks n k idx) ->
  (exists idx, In idx keys /\ picks_every_component n k c idx) ->
  exists sol, normalized_random_walk_k svd keys n W k = Some sol /\ labels_components n W (sp_assignment sol) /\
    sp_num_clusters sol = k /\ sp_singular_values sol = S /\ sp_connectivity sol = S@(n - 2).
Proof.
  intros Sy Nn HC Hn HL E HS Hk Hp. unfold normalized_random_walk_k. rewrite HL.
  exact (@spectral_recovers n k W L c U VH S (@rw_shape n W L HL) HC (fun x => @rw_kernel n W L x HL Sy Nn) HS svd keys E Hk Hp Hn).
Qed.
Print Assumptions C73_random_walk_k.
(** The fast variant needs that no component is bipartite. *)
Theorem C73_fast_k n k W M c lansvd keys U S V :
  normalized_symmetric_w n W = Some M -> symmetric n W -> nonnegative n W -> components n W k c ->
  (forall i, (i < n)%nat -> ~ two_colourable n W i) ->
  lansvd M (5 * k)%nat = (U, S, V) -> leading_right_vectors n k M S V ->
  (forall idx, In idx keys -> picks n k idx) ->
  (exists idx, In idx keys /\ picks_every_component n k c idx) -> (0 < n)%nat ->
  exists sol, normalized_symmetric_fast_k lansvd keys n W k = Some sol /\ labels_components n W (sp_assignment sol) /\
    sp_num_clusters sol = k.
Proof. exact (@fast_recovers n k W M c lansvd keys U S V). Qed.
Print Assumptions C73_fast_k.

(** The zero singular values count the components, and the reported
    connectivity S[-2] vanishes exactly for graphs that are not connected. *)
Theorem C73_zero_singular_values n k W c U S VH :
  symmetric n W -> nonnegative n W -> components n W k c -> is_svd n (unnormalized_laplacian n W) U S VH ->
  (k <= n)%nat /\ (forall l, (l < n)%nat -> (S@l = 0 <-> (n - k <= l)%nat)) /\
  ((2 <= n)%nat -> (S@(n - 2) = 0 <-> (2 <= k)%nat)).
Proof.
  intros Sy Nn HC HS. destruct (@zeros_last n k W _ c U VH S (lap_shape n W) HC (fun x => @lap_kernel n W x Sy Nn) HS) as [Hk Hz].
  split; auto. split; auto. intros Hn. rewrite Hz by lia. lia.
Qed.
Print Assumptions C73_zero_singular_values.

(** The automatic variant finds the components when the largest drop among the
    singular values (the last one not counted) is the drop to zero. *)
Theorem C73_automatic n k W c svd keys U S VH :
  symmetric n W -> nonnegative n W -> components n W k c -> (2 <= k)%nat -> (k < n)%nat ->
  svd (unnormalized_laplacian n W) = (U, S, VH) -> is_svd n (unnormalized_laplacian n W) U S VH ->
  (forall l, (l < n - 2)%nat -> l <> (n - 1 - k)%nat -> S@l - S@(l + 1) < S@(n - 1 - k)) ->
  (forall idx, In idx keys -> picks n k idx) ->
  (exists idx, In idx keys /\ picks_every_component n k c idx) ->
  exists sol, unnormalized svd keys n W = Some sol /\ labels_components n W (sp_assignment sol) /\ sp_num_clusters sol = k.
Proof.
  intros Sy Nn HC H2 Hkn E HS Hgap Hk Hp.
  destruct (C73_zero_singular_values Sy Nn HC HS) as [_ [Hz _]]. pose proof HS as [_ [_ [LS _]]].
  assert (EK : estimated_clusters n S = Some k).
  { destruct (estimated_clusters n S) as [k'|] eqn:Q.
    - destruct (estimated_eq S LS Q) as [_ [B G]]. f_equal. destruct (Nat.eq_dec k' k) as [|Ne]; auto. exfalso.
      specialize (Hgap (n - 1 - k')%nat ltac:(lia) ltac:(lia)). specialize (G (n - 1 - k)%nat ltac:(lia)).
      replace (n - 1 - k' + 1)%nat with (n - k')%nat in Hgap by lia. replace (n - 1 - k + 1)%nat with (n - k)%nat in G by lia.
      rewrite (proj2 (Hz (n - k)%nat ltac:(lia))) in G by lia. lra.
    - apply (estimated_none S LS) in Q. lia. }
  unfold unnormalized, spectral_auto. rewrite E, EK.
  destruct (@C73_unnormalized_k n k W c svd keys U S VH Sy Nn HC ltac:(lia) E HS Hk Hp) as [sol [R [L [N _]]]]. eauto.
Qed.
Print Assumptions C73_automatic.
(** The automatic variant never reports one cluster, nor n. *)
Theorem C73_automatic_range n W svd keys U S VH sol :
  svd (unnormalized_laplacian n W) = (U, S, VH) -> length S = n -> unnormalized svd keys n W = Some sol ->
  (2 <= sp_num_clusters sol <= n - 1)%nat.
Proof.
  intros E LS. unfold unnormalized, spectral_auto. rewrite E. destruct (estimated_clusters n S) as [k'|] eqn:Q; [|discriminate].
  destruct (estimated_eq S LS Q) as [_ [B _]]. unfold spectral_k. rewrite E. destruct (Nat.leb k' n); [|discriminate].
  destruct (cluster_rows _ _ _) as [[i r]|]; [|discriminate]. intros [= <-]. exact B.
Qed.
Print Assumptions C73_automatic_range.
Theorem C73_automatic_small n W svd keys U S VH :
  svd (unnormalized_laplacian n W) = (U, S, VH) -> length S = n -> (n <= 2)%nat -> unnormalized svd keys n W = None.
Proof.
  intros E LS Hn. unfold unnormalized, spectral_auto. rewrite E. assert (Q : estimated_clusters n S = None) by (apply estimated_none; auto; lia). now rewrite Q.
Qed.
Print Assumptions C73_automatic_small.

(** *** a concrete graph: the edges 0-1 and 2-3 *)
Ltac four i := destruct i as [|[|[|[|i]]]]; [| | | |lia].
Ltac crunch := unfold ent, rsum, Sum, delta; cbn; try lra; try nra.
Definition h : R := sqrt (1 / 2).
Lemma h_sq : h * h = 1 / 2.
Proof. apply sqrt_sqrt. lra. Qed.
Definition W2 : mat := [[0;1;0;0];[1;0;0;0];[0;0;0;1];[0;0;1;0]].
Definition c2 (i : nat) : nat := Nat.div2 i.
Lemma W2_sym : symmetric 4 W2.
Proof. intros i j Hi Hj. four i; four j; crunch. Qed.
Lemma W2_nonneg : nonnegative 4 W2.
Proof. intros i j Hi Hj. four i; four j; crunch. Qed.
Lemma groups_components (W : mat) : (forall i j, (i < 4)%nat -> (j < 4)%nat -> ent W i j <> 0 -> c2 i = c2 j) ->
  ent W 0 1 <> 0 -> ent W 1 0 <> 0 -> ent W 2 3 <> 0 -> ent W 3 2 <> 0 -> components 4 W 2 c2.
Proof.
  intros Hg E01 E10 E23 E32. split; [intros i Hi; four i; cbn; lia|]. split.
  - intros a Ha. destruct a as [|[|]]; [exists 0%nat|exists 2%nat|lia]; split; auto; lia.
  - intros i j Hi Hj. split.
    + intros C. clear Hi Hj. induction C as [|i j k Hi Hj E C IH]; auto. now rewrite (Hg i j) by auto.
    + intros E. four i; four j; try discriminate E; try apply conn_refl; apply connected_edge; auto.
Qed.
Lemma W2_components : components 4 W2 2 c2.
Proof. apply groups_components; try (unfold ent; cbn; lra). intros i j Hi Hj. four i; four j; unfold ent; cbn; intros H; try reflexivity; exfalso; apply H; reflexivity. Qed.
Definition V4 : mat := [[h;-h;0;0];[0;0;h;-h];[h;h;0;0];[0;0;h;h]].
Definition V4T : mat := [[h;0;h;0];[-h;0;h;0];[0;h;0;h];[0;-h;0;h]].
Lemma V4_orth : orthogonal 4 V4 /\ orthogonal 4 V4T.
Proof. pose proof h_sq. split; intros i j Hi Hj; four i; four j; split; crunch. Qed.
Lemma mono4 (a b : R) : b <= a -> forall i j, (i <= j)%nat -> (j < 4)%nat -> [a;a;b;b]@j <= [a;a;b;b]@i.
Proof. intros H i j Hij Hj. four j; destruct i as [|[|[|[|i]]]]; try lia; cbn; lra. Qed.
Lemma W2_svd : is_svd 4 (unnormalized_laplacian 4 W2) V4T [2;2;0;0] V4.
Proof.
  split; [apply V4_orth|]. split; [apply V4_orth|]. split; [reflexivity|]. split; [intros i Hi; four i; cbn; lra|].
  split; [apply mono4; lra|]. pose proof h_sq. intros i j Hi Hj.
  rewrite lap_ent, degrees_nth by auto. four i; four j; crunch.
Qed.
Example C73_nonvacuous : exists svd keys sol,
  symmetric 4 W2 /\ nonnegative 4 W2 /\ components 4 W2 2 c2 /\
  (exists U S VH, svd (unnormalized_laplacian 4 W2) = (U, S, VH) /\ is_svd 4 (unnormalized_laplacian 4 W2) U S VH) /\
  unnormalized svd keys 4 W2 = Some sol /\ labels_components 4 W2 (sp_assignment sol) /\ sp_num_clusters sol = 2%nat.
Proof.
  exists (fun _ => (V4T, [2;2;0;0], V4)), [[1;2]%nat].
  destruct (@C73_automatic 4 2 W2 c2 (fun _ => (V4T, [2;2;0;0], V4)) [[1;2]%nat] V4T [2;2;0;0] V4 W2_sym W2_nonneg W2_components ltac:(lia) ltac:(lia) eq_refl W2_svd) as [sol [R [L N]]].
  - intros l Hl Hne. destruct l as [|[|l]]; [|lia|lia]. cbn. lra.
  - intros idx [<-|[]]. split; [reflexivity|]. intros i [<-|[<-|[]]]; lia.
  - exists [1;2]%nat. split; [left; reflexivity|]. intros a Ha. destruct a as [|[|]]; [exists 1%nat|exists 2%nat|lia]; split; simpl; auto.
  - exists sol. split; [apply W2_sym|]. split; [apply W2_nonneg|]. split; [apply W2_components|].
    split; [exists V4T, [2;2;0;0], V4; split; [reflexivity|apply W2_svd]|auto].
Qed.
(** ... and for the fast variant: two vertices with a loop each, twice *)
Definition W3 : mat := [[1;1;0;0];[1;1;0;0];[0;0;1;1];[0;0;1;1]].
Definition M3 : mat := [[1/2;1/2;0;0];[1/2;1/2;0;0];[0;0;1/2;1/2];[0;0;1/2;1/2]].
Lemma W3_norm : exists M, normalized_symmetric_w 4 W3 = Some M /\ forall i j, (i < 4)%nat -> (j < 4)%nat -> ent M i j = ent M3 i j.
Proof.
  assert (D : forall i, (i < 4)%nat -> (degrees 4 W3)@i = 2) by (intros i Hi; rewrite degrees_nth by auto; four i; crunch).
  assert (B : all_positive (degrees 4 W3) = true).
  { apply forallb_forall. intros d Hd. destruct (In_nth _ _ 0 Hd) as [i [Li Ei]]. unfold degrees in Li. rewrite tab_length in Li.
    rewrite <- Ei, D by auto. destruct (Rltb_spec 0 2); auto; lra. }
  destruct (normalized_symmetric_w 4 W3) as [M|] eqn:E; [|unfold normalized_symmetric_w in E; cbv zeta in E; rewrite B in E; discriminate].
  exists M. split; auto. intros i j Hi Hj. rewrite (@nsym_ent 4 W3 M E i j Hi Hj), !D by auto.
  assert (S2 : / sqrt 2 * / sqrt 2 = / 2) by (rewrite <- Rinv_mult, sqrt_sqrt by lra; reflexivity).
  transitivity (ent W3 i j * (/ sqrt 2 * / sqrt 2)); [ring|]. rewrite S2. four i; four j; crunch.
Qed.
Definition V3 : mat := [[h;h;0;0];[0;0;h;h];[h;-h;0;0];[0;0;h;-h]].
Definition V3T : mat := [[h;0;h;0];[h;0;-h;0];[0;h;0;h];[0;h;0;-h]].
Example C73_fast_nonvacuous : exists M (lansvd : mat -> nat -> mat * vec * mat) keys U S V,
  normalized_symmetric_w 4 W3 = Some M /\ symmetric 4 W3 /\ nonnegative 4 W3 /\ components 4 W3 2 c2 /\
  (forall i, (i < 4)%nat -> ~ two_colourable 4 W3 i) /\
  lansvd M 10%nat = (U, S, V) /\ leading_right_vectors 4 2 M S V /\
  (forall idx, In idx keys -> picks 4 2 idx) /\ (exists idx, In idx keys /\ picks_every_component 4 2 c2 idx).
Proof.
  destruct W3_norm as [M [E EM]].
  exists M, (fun _ _ => (V3T, [1;1;0;0], V3T)), [[1;2]%nat], V3T, [1;1;0;0], V3T. split; auto.
  split; [intros i j Hi Hj; four i; four j; crunch|]. split; [intros i j Hi Hj; four i; four j; crunch|].
  split; [apply groups_components; try (unfold ent; cbn; lra); intros i j Hi Hj; four i; four j; unfold ent; cbn; intros H; try reflexivity; exfalso; apply H; reflexivity|].
  split; [intros i Hi [col Hc]; apply (Hc i i Hi Hi (conn_refl _ _ _)); [four i; unfold ent; cbn; lra|reflexivity]|].
  split; [reflexivity|]. split.
  - exists V3T, [1;1;0;0], V3. split; [|intros j Hj; split; [reflexivity|]; intros i Hi; destruct j as [|[|]]; [| |lia]; four i; reflexivity].
    pose proof h_sq. split; [intros i j Hi Hj; four i; four j; split; crunch|]. split; [intros i j Hi Hj; four i; four j; split; crunch|].
    split; [reflexivity|]. split; [intros i Hi; four i; cbn; lra|]. split; [apply mono4; lra|].
    intros i j Hi Hj. rewrite EM by auto. four i; four j; crunch.
  - split; [intros idx [<-|[]]; split; [reflexivity|]; intros i [<-|[<-|[]]]; lia|].
    exists [1;2]%nat. split; [left; reflexivity|]. intros a Ha. destruct a as [|[|]]; [exists 1%nat|exists 2%nat|lia]; split; simpl; auto.
Qed.

(** *** refutations *)
(** the complete graph on four vertices is connected, yet three clusters are reported *)
Definition W4 : mat := [[0;1;1;1];[1;0;1;1];[1;1;0;1];[1;1;1;0]].
Definition H4 : mat := [[1/2;1/2;-1/2;-1/2];[1/2;-1/2;1/2;-1/2];[1/2;-1/2;-1/2;1/2];[1/2;1/2;1/2;1/2]].
Definition H4T : mat := [[1/2;1/2;1/2;1/2];[1/2;-1/2;-1/2;1/2];[-1/2;1/2;-1/2;1/2];[-1/2;-1/2;1/2;1/2]].
Theorem C73_automatic_refuted : exists W svd keys U S VH sol,
  symmetric 4 W /\ nonnegative 4 W /\ components 4 W 1 (fun _ => 0%nat) /\
  svd (unnormalized_laplacian 4 W) = (U, S, VH) /\ is_svd 4 (unnormalized_laplacian 4 W) U S VH /\
  unnormalized svd keys 4 W = Some sol /\ sp_num_clusters sol <> 1%nat.
Proof.
  assert (Sy : symmetric 4 W4) by (intros i j Hi Hj; four i; four j; crunch).
  assert (Nn : nonnegative 4 W4) by (intros i j Hi Hj; four i; four j; crunch).
  assert (SV : is_svd 4 (unnormalized_laplacian 4 W4) H4T [4;4;4;0] H4).
  { split; [intros i j Hi Hj; four i; four j; split; crunch|]. split; [intros i j Hi Hj; four i; four j; split; crunch|].
    split; [reflexivity|]. split; [intros i Hi; four i; cbn; lra|].
    split; [intros i j Hij Hj; four j; destruct i as [|[|[|[|i]]]]; try lia; cbn; lra|].
    intros i j Hi Hj. rewrite lap_ent, degrees_nth by auto. four i; four j; crunch. }
  set (svd := fun _ : mat => (H4T, [4;4;4;0], H4)).
  assert (HR : exists sol, unnormalized svd [[0;1;2]%nat] 4 W4 = Some sol).
  { unfold unnormalized, spectral_auto. cbn [svd]. destruct (estimated_clusters 4 [4;4;4;0]) as [k|] eqn:Q.
    - destruct (@estimated_eq 4 [4;4;4;0] k eq_refl Q) as [_ [B _]].
      assert (K : k = 3%nat).
      { destruct (Nat.eq_dec k 3) as [|Ne]; auto. assert (k = 2%nat) by lia. subst k. exfalso.
        unfold estimated_clusters in Q. cbn in Q. unfold argmin, SelModel.argmax in Q. cbn in Q.
        repeat match type of Q with context[Rltb ?a ?b] => destruct (Rltb_spec a b); [lra|] end. cbn in Q. discriminate Q. }
      subst k. unfold spectral_k. cbn [svd]. cbn [Nat.leb]. unfold cluster_rows.
      destruct (@kmeans_total 4 3 3 (last_right_vectors 4 3 H4) [[0;1;2]%nat] (1/100000) 100 100) as [i [s R]];
        [apply embed_shape|discriminate| |lia|lia|lia|rewrite R; eauto].
      intros idx [<-|[]]. split; [reflexivity|]. intros i [<-|[<-|[<-|[]]]]; lia.
    - apply (@estimated_none 4 [4;4;4;0] eq_refl) in Q. lia. }
  destruct HR as [sol R].
  exists W4, svd, [[0;1;2]%nat], H4T, [4;4;4;0], H4, sol. split; auto. split; auto. split.
  - split; [intros; lia|]. split; [intros a Ha; exists 0%nat; split; lia|]. intros i j Hi Hj. split; auto. intros _.
    destruct (Nat.eq_dec i j) as [->|Ne]; [apply conn_refl|]. apply connected_edge; auto. four i; four j; try (exfalso; lia); unfold ent; cbn; lra.
  - split; [reflexivity|]. split; auto. split; auto.
    pose proof (@C73_automatic_range 4 W4 svd [[0;1;2]%nat] H4T [4;4;4;0] H4 sol eq_refl eq_refl R). lia.
Qed.
Print Assumptions C73_automatic_refuted.

(** For bipartite components the leading singular vectors of the normalised
    affinity do not determine the components: on the edges 0-1 and 2-3 a valid
    decomposition separates 0 from its neighbour 1 and joins it with 2. *)
Definition B4 : mat := [[h;0;h;0];[0;h;0;h];[h;0;-h;0];[0;h;0;-h]].
Definition B4T : mat := [[h;0;h;0];[0;h;0;h];[h;0;-h;0];[0;h;0;-h]].
Definition B4U : mat := [[0;h;0;h];[h;0;h;0];[0;h;0;-h];[h;0;-h;0]].
Lemma W2_norm : exists M, normalized_symmetric_w 4 W2 = Some M /\ forall i j, (i < 4)%nat -> (j < 4)%nat -> ent M i j = ent W2 i j.
Proof.
  assert (D : forall i, (i < 4)%nat -> (degrees 4 W2)@i = 1) by (intros i Hi; rewrite degrees_nth by auto; four i; crunch).
  assert (B : all_positive (degrees 4 W2) = true).
  { apply forallb_forall. intros d Hd. destruct (In_nth _ _ 0 Hd) as [i [Li Ei]]. unfold degrees in Li. rewrite tab_length in Li.
    rewrite <- Ei, D by auto. destruct (Rltb_spec 0 1); auto; lra. }
  destruct (normalized_symmetric_w 4 W2) as [M|] eqn:E; [|unfold normalized_symmetric_w in E; cbv zeta in E; rewrite B in E; discriminate].
  exists M. split; auto. intros i j Hi Hj. rewrite (@nsym_ent 4 W2 M E i j Hi Hj), !D by auto. rewrite sqrt_1, Rinv_1. ring.
Qed.
Theorem C73_bipartite_refuted : exists W M (lansvd : mat -> nat -> mat * vec * mat) keys U S V sol,
  normalized_symmetric_w 4 W = Some M /\ symmetric 4 W /\ nonnegative 4 W /\ components 4 W 2 c2 /\
  lansvd M 10%nat = (U, S, V) /\ leading_right_vectors 4 2 M S V /\
  normalized_symmetric_fast_k lansvd keys 4 W 2 = Some sol /\
  connected 4 W 0 1 /\ nth 0 (sp_assignment sol) 0%nat <> nth 1 (sp_assignment sol) 0%nat /\
  ~ connected 4 W 0 2 /\ nth 0 (sp_assignment sol) 0%nat = nth 2 (sp_assignment sol) 0%nat.
Proof.
  destruct W2_norm as [M [E EM]]. pose proof h_sq as Hh. assert (Hp : 0 < h) by (apply sqrt_lt_R0; lra).
  assert (LV : leading_right_vectors 4 2 M [1;1;1;1] B4T).
  { exists B4U, [1;1;1;1], B4. split; [|intros j Hj; split; [reflexivity|]; intros i Hi; destruct j as [|[|]]; [| |lia]; four i; reflexivity].
    split; [intros i j Hi Hj; four i; four j; split; crunch|]. split; [intros i j Hi Hj; four i; four j; split; crunch|].
    split; [reflexivity|]. split; [intros i Hi; four i; cbn; lra|]. split; [apply (@mono4 1 1); lra|].
    intros i j Hi Hj. rewrite EM by auto. four i; four j; crunch. }
  assert (N1 : nrm [h; 0] = h) by (unfold nrm; cbn; transitivity (sqrt (h * h)); [f_equal; ring|apply sqrt_square; lra]).
  assert (N2 : nrm [0; h] = h) by (unfold nrm; cbn; transitivity (sqrt (h * h)); [f_equal; ring|apply sqrt_square; lra]).
  assert (HK : normalize_l2_rw (first_columns 4 2 B4T) = Some [[1;0];[0;1];[1;0];[0;1]]).
  { change (first_columns 4 2 B4T) with ([[h;0];[0;h];[h;0];[0;h]] : mat). unfold normalize_l2_rw. cbn [forallb].
    rewrite N1, N2. destruct (Reqb_spec h 0); [lra|]. cbn [negb andb map]. rewrite N1, N2. repeat f_equal; field; lra. }
  set (K := [[1;0];[0;1];[1;0];[0;1]] : mat). fold K in HK.
  assert (ShK : shape 4 2 K) by (split; [reflexivity|]; intros r [<-|[<-|[<-|[<-|[]]]]]; reflexivity).
  assert (Hs : forall i j, (i < 4)%nat -> (j < 4)%nat -> (row K i = row K j <-> Nat.modulo i 2 = Nat.modulo j 2)).
  { intros i j Hi Hj. four i; four j; unfold row; cbn; split; intros Q; auto; try discriminate Q; injection Q; intros; lra. }
  set (keys := [[0;1]%nat]).
  assert (Hkeys : forall idx, In idx keys -> picks 4 2 idx) by (intros idx [<-|[]]; split; [reflexivity|]; intros i [<-|[<-|[]]]; lia).
  destruct (@kmeans_total 4 2 2 K keys (1/100000) 100 100 ShK ltac:(discriminate) Hkeys ltac:(lia) ltac:(lia) ltac:(lia)) as [i [s R]].
  destruct (@kmeans_recovers 4 2 2 K (fun i => Nat.modulo i 2) keys (1/100000) 100 100 ShK Hs ltac:(lia)
    (fun i _ => Nat.mod_upper_bound i 2 ltac:(lia)) Hkeys i s) as [_ Rc]; auto.
  { exists [0;1]%nat. split; [left; reflexivity|]. intros a Ha. destruct a as [|[|]]; [exists 0%nat|exists 1%nat|lia]; split; simpl; auto. }
  exists W2, M, (fun _ _ => (B4U, [1;1;1;1], B4T)), keys, B4U, [1;1;1;1], B4T, (SpectralSolution M [1;1;1;1] (km_assignment s) 2 (-1)).
  split; auto. split; [apply W2_sym|]. split; [apply W2_nonneg|]. split; [apply W2_components|]. split; [reflexivity|]. split; auto.
  split; [unfold normalized_symmetric_fast_k; rewrite E, HK; unfold cluster_rows; now rewrite R|]. cbn [sp_assignment].
  split; [apply connected_edge; try lia; unfold ent; cbn; lra|].
  split; [rewrite Rc by lia; discriminate|].
  split; [intros C; apply W2_components in C; [discriminate C|lia|lia]|]. rewrite Rc by lia. reflexivity.
Qed.
Print Assumptions C73_bipartite_refuted.
