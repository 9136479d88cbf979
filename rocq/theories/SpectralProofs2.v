(** Spectral clustering of a graph with k components. *)
From Coq Require Import List Arith Bool Lia Reals Lra Psatz.
From Verif Require Import Vec RVec RMat Loop LoopLemmas SelModel KMeansModel KMeansSpec KMeansProofs SolverSpec ClusterModel SscModel SscSpec SscProofs LaplacianProofs SpectralModel SpectralSpec SpectralProofs.
Import ListNotations.
Set Implicit Arguments.
Local Open Scope R_scope.

Lemma rsum_tail n k f : (k <= n)%nat -> rsum n f = rsum (n - k) f + rsum k (fun i => f (n - k + i)%nat).
Proof. intros H. rewrite <- rsum_split. f_equal. lia. Qed.
Lemma connected_left n W i j : connected n W i j -> (j < n)%nat -> (i < n)%nat.
Proof. intros H Hj. destruct H; auto. Qed.
Lemma connected_const n W (x : nat -> R) : (forall i j, (i < n)%nat -> (j < n)%nat -> ent W i j <> 0 -> x i = x j) ->
  forall i j, connected n W i j -> x i = x j.
Proof. intros H i j C. induction C as [|i j k Hi Hj E C IH]; auto. rewrite (H i j) by auto. exact IH. Qed.
Lemma connected_edge n W i j : (i < n)%nat -> (j < n)%nat -> ent W i j <> 0 -> connected n W i j.
Proof. intros. econstructor; eauto. constructor. Qed.
Section Comp.
  Variables (n k : nat) (W : mat) (c : nat -> nat).
  Hypothesis HC : components n W k c.
  Lemma edge_const_groups (x : nat -> R) : (forall i j, (i < n)%nat -> (j < n)%nat -> ent W i j <> 0 -> x i = x j) <->
    forall i j, (i < n)%nat -> (j < n)%nat -> c i = c j -> x i = x j.
  Proof.
    destruct HC as [_ [_ H]]. split; intros K i j Hi Hj E.
    - apply (connected_const x K). now apply H.
    - apply K; auto. apply H; auto. now apply connected_edge.
  Qed.
  Lemma size_sum a : vol n c (fun _ => 1) a = INR (component_size n c a).
  Proof.
    unfold vol, component_size. clear HC. induction n as [|m IH]; [reflexivity|].
    rewrite rsum_S, IH, seq_S, filter_app, app_length, plus_INR. f_equal. cbn [filter length Nat.add]. destruct (Nat.eqb (c m) a); simpl; ring.
  Qed.
End Comp.

(** *** the singular vectors of a matrix whose kernel are the vectors constant along the edges *)
Section Ker.
  Variables (n k : nat) (W M : mat) (c : nat -> nat) (U VH : mat) (sv : vec).
  Hypothesis HM : shape n n M.
  Hypothesis HC : components n W k c.
  Hypothesis Hker : forall x, length x = n ->
    (mv M x = rzero n <-> forall i j, (i < n)%nat -> (j < n)%nat -> ent W i j <> 0 -> x@i = x@j).
  Hypothesis HS : is_svd n M U sv VH.
  Notation V := (ent VH).
  Notation one := (fun _ : nat => 1).
  Definition Mf (M : mat) (x : nat -> R) (i : nat) : R := rsum n (fun j => ent M i j * x j).
  Lemma mv_tab x : forall i, (i < n)%nat -> (mv M (tab n x))@i = Mf M x i.
  Proof. intros i Hi. rewrite (mv_ent _ HM) by (auto; apply tab_length). apply rsum_ext. intros j Hj. now rewrite nth_tab. Qed.
  Lemma Mf_svd x i : (i < n)%nat -> Mf M x i = rsum n (fun l => ent U i l * (sv@l * rsum n (fun j => V l j * x j))).
  Proof.
    intros Hi. unfold Mf. destruct HS as [_ [_ [_ [_ [_ E]]]]].
    rewrite (rsum_ext _ (fun j => rsum n (fun l => ent U i l * sv@l * V l j * x j))).
    - rewrite rsum_exchange. apply rsum_ext. intros l Hl. rewrite <- !rsum_mul_l. apply rsum_ext. intros j Hj. ring.
    - intros j Hj. rewrite E, <- rsum_mul_r by auto. reflexivity.
  Qed.
  Lemma Mf_vec l i : (l < n)%nat -> (i < n)%nat -> Mf M (V l) i = sv@l * ent U i l.
  Proof.
    intros Hl Hi. rewrite Mf_svd by auto. destruct HS as [_ [O _]].
    rewrite (rsum_ext _ (fun m => delta l m * (ent U i m * sv@m))); [rewrite delta_sum by auto; ring|].
    intros m Hm. destruct (O m l Hm Hl) as [-> _]. unfold delta. rewrite (Nat.eqb_sym m l). ring.
  Qed.
  Lemma Mf_left l x : (l < n)%nat -> rsum n (fun i => ent U i l * Mf M x i) = sv@l * rsum n (fun j => V l j * x j).
  Proof.
    intros Hl. rewrite (rsum_ext _ (fun i => rsum n (fun m => ent U i l * ent U i m * (sv@m * rsum n (fun j => V m j * x j))))).
    - rewrite rsum_exchange. rewrite (rsum_ext _ (fun m => delta l m * (sv@m * rsum n (fun j => V m j * x j)))); [now rewrite delta_sum|].
      intros m Hm. rewrite rsum_mul_r. destruct HS as [O _]. now destruct (O l m Hl Hm) as [_ ->].
    - intros i Hi. rewrite Mf_svd, <- rsum_mul_l by auto. apply rsum_ext. intros m Hm. ring.
  Qed.
  Definition ksel (l : nat) : bool := Reqb (sv@l) 0.
  Lemma ker_groups x : (forall i, (i < n)%nat -> Mf M x i = 0) <-> prop_on n c one x.
  Proof.
    assert (E : prop_on n c one x <-> forall i j, (i < n)%nat -> (j < n)%nat -> ent W i j <> 0 -> x i = x j).
    { rewrite (edge_const_groups HC). unfold prop_on. split; intros H i j Hi Hj Hc; specialize (H i j Hi Hj Hc); lra. }
    rewrite E. transitivity (mv M (tab n x) = rzero n).
    - split.
      + intros H. apply vec_eq; [rewrite mv_len, rzero_len; apply HM|]. intros i Hi. rewrite mv_len in Hi. destruct HM as [Ln _]. rewrite Ln in Hi.
        now rewrite mv_tab, rzero_nth, H.
      + intros H i Hi. rewrite <- mv_tab, H by auto. apply rzero_nth.
    - rewrite Hker by apply tab_length. split; intros H i j Hi Hj Hc; specialize (H i j Hi Hj Hc); rewrite !nth_tab in * by auto; auto.
  Qed.
  Lemma ksel1 l : (l < n)%nat -> ksel l = true -> prop_on n c one (V l).
  Proof.
    intros Hl E. apply ker_groups. intros i Hi. rewrite Mf_vec by auto. unfold ksel in E. destruct (Reqb_spec (sv@l) 0) as [->|]; [ring|discriminate].
  Qed.
  Lemma ksel2 l x : (l < n)%nat -> ksel l = false -> prop_on n c one x -> rsum n (fun i => V l i * x i) = 0.
  Proof.
    intros Hl E Hx. pose proof (Mf_left x Hl) as K.
    rewrite rsum_0' in K by (intros i Hi; rewrite (proj2 (ker_groups x) Hx) by auto; ring).
    unfold ksel in E. destruct (Reqb_spec (sv@l) 0); [discriminate|]. symmetry in K. apply Rmult_integral in K as [K|K]; [easy|auto].
  Qed.
  Lemma V1 l m : (l < n)%nat -> (m < n)%nat -> rsum n (fun i => V l i * V m i) = delta l m.
  Proof. intros Hl Hm. destruct HS as [_ [O _]]. now apply O. Qed.
  Lemma V2 i j : (i < n)%nat -> (j < n)%nat -> rsum n (fun l => V l i * V l j) = delta i j.
  Proof. intros Hi Hj. destruct HS as [_ [O _]]. now apply O. Qed.
  Lemma one_pos : forall i, (i < n)%nat -> 0 < one i.
  Proof. intros. lra. Qed.
  Lemma zeros_last : (k <= n)%nat /\ forall l, (l < n)%nat -> (sv@l = 0 <-> (n - k <= l)%nat).
  Proof.
    destruct HC as [C1 [C2 _]]. destruct HS as [_ [_ [_ [P [D _]]]]].
    destruct (@up_closed_count n k ksel) as [Hk Hf].
    - intros i j Hij Hj E. unfold ksel in *. destruct (Reqb_spec (sv@i) 0) as [Z|]; [|discriminate].
      destruct (Reqb_spec (sv@j) 0) as [|N]; auto. specialize (P j Hj). specialize (D i j Hij Hj). exfalso. apply N. lra.
    - exact (@trace_count n c one V ksel one_pos V1 V2 ksel1 ksel2 k C1 C2).
    - split; auto. intros l Hl. specialize (Hf l Hl). unfold ksel in Hf.
      destruct (Reqb_spec (sv@l) 0), (Nat.leb_spec (n - k) l); try discriminate; split; auto; try easy. intros. lia.
  Qed.
  Lemma embed_shape : shape n k (last_right_vectors n k VH).
  Proof. unfold last_right_vectors. split; [apply tab_length|]. intros r Hr. apply in_map_iff in Hr. destruct Hr as [i [<- _]]. apply tab_length. Qed.
  Lemma embed_row i : (i < n)%nat -> nth i (last_right_vectors n k VH) [] = tab k (fun j => V (n - k + j)%nat i).
  Proof. intros Hi. unfold last_right_vectors. now rewrite nth_tab. Qed.
  Lemma embed_gram i j : (i < n)%nat -> (j < n)%nat ->
    rdot (nth i (last_right_vectors n k VH) []) (nth j (last_right_vectors n k VH) []) =
    if Nat.eqb (c i) (c j) then / INR (component_size n c (c j)) else 0.
  Proof.
    intros Hi Hj. destruct zeros_last as [Hk Hz]. rewrite !embed_row by auto. rewrite (@rdot_sum k) by apply tab_length.
    pose proof (@gram n c one V ksel one_pos V2 ksel1 ksel2 i j Hi Hj) as G. rewrite size_sum in G.
    transitivity (rsum n (fun l => if ksel l then V l i * V l j else 0)).
    - rewrite (@rsum_tail n k (fun l => if ksel l then V l i * V l j else 0) Hk).
      assert (Z0 : rsum (n - k) (fun l => if ksel l then V l i * V l j else 0) = 0).
      { apply rsum_0'. intros l Hl. unfold ksel. destruct (Reqb_spec (sv@l) 0) as [Z|]; auto. apply Hz in Z; lia. }
      rewrite Z0, Rplus_0_l. apply rsum_ext. intros l Hl. rewrite !nth_tab by auto. unfold ksel.
      destruct (Reqb_spec (sv@(n - k + l)) 0) as [|N]; auto. exfalso. apply N, Hz; lia.
    - rewrite G. destruct (Nat.eqb _ _); auto. unfold Rdiv. ring.
  Qed.
  Lemma size_pos i : (i < n)%nat -> 0 < INR (component_size n c (c i)).
  Proof. intros Hi. rewrite <- size_sum. apply (@vol_pos n c one one_pos i Hi). Qed.
  Lemma dist_gram (x y : vec) m : length x = m -> length y = m -> nrm2 (rsub x y) = rdot x x - 2 * rdot x y + rdot y y.
  Proof.
    intros Lx Ly. unfold nrm2. rewrite !(@rdot_sum m) by (auto; rewrite rsub_len; lia). rewrite <- rsum_mul_l, <- rsum_sub, <- rsum_add.
    apply rsum_ext. intros i Hi. rewrite rsub_nth by lia. ring.
  Qed.
  Lemma embed_same i j : (i < n)%nat -> (j < n)%nat ->
    (row (last_right_vectors n k VH) i = row (last_right_vectors n k VH) j <-> c i = c j).
  Proof.
    intros Hi Hj. unfold row. split.
    - intros E. pose proof (embed_gram Hi Hj) as G. rewrite E, embed_gram, Nat.eqb_refl in G by auto.
      destruct (Nat.eqb_spec (c i) (c j)); auto. exfalso. pose proof (size_pos Hj). apply Rinv_0_lt_compat in H. lra.
    - intros E. apply nrm_zero_eq; [now rewrite !(shape_row embed_shape)|].
      transitivity (sqrt 0); [|apply sqrt_0]. unfold nrm. f_equal. etransitivity; [apply (@dist_gram _ _ k); now apply (shape_row embed_shape)|].
      rewrite !embed_gram, E, !Nat.eqb_refl by auto. ring.
  Qed.

  Variables (svd : mat -> mat * vec * mat) (keys : list (list nat)).
  Hypothesis Hsvd : svd M = (U, sv, VH).
  Hypothesis Hkeys : forall idx, In idx keys -> picks n k idx.
  Hypothesis Hpick : exists idx, In idx keys /\ picks_every_component n k c idx.
  Hypothesis Hn : (0 < n)%nat.
  Lemma spectral_recovers : exists sol, spectral_k svd keys n M k = Some sol /\
    labels_components n W (sp_assignment sol) /\ sp_num_clusters sol = k /\ sp_singular_values sol = sv /\ sp_connectivity sol = sv@(n - 2).
  Proof.
    destruct zeros_last as [Hkn _]. pose proof (proj1 HC) as C1. pose proof (C1 _ Hn) as Hk0.
    assert (Hne : keys <> []) by (destruct Hpick as [idx [Hin _]]; intros E; rewrite E in Hin; destruct Hin).
    unfold spectral_k. rewrite Hsvd. destruct (Nat.leb_spec k n); [|lia]. unfold cluster_rows.
    destruct (@kmeans_total n k k (last_right_vectors n k VH) keys (1/100000) 100 100 embed_shape Hne Hkeys Hn ltac:(lia) ltac:(lia)) as [i [s HR]].
    rewrite HR. eexists. split; [reflexivity|]. cbn [sp_assignment sp_num_clusters sp_singular_values sp_connectivity].
    destruct (@kmeans_recovers n k k _ c keys _ _ _ embed_shape embed_same Hn C1 Hkeys i s Hpick HR) as [L R].
    split; [|auto]. split; auto. intros p q Hp Hq. rewrite R by auto. symmetry. apply HC; auto.
  Qed.
End Ker.

(** *** the estimated number of clusters *)
Lemma removelast_nth (l : vec) i : (i < length l - 1)%nat -> (removelast l)@i = l@i.
Proof.
  revert i. induction l as [|a l IH]; intros i Hi; [simpl in Hi; lia|].
  destruct l as [|b l]; [simpl in Hi; lia|]. change (removelast (a :: b :: l)) with (a :: removelast (b :: l)).
  destruct i as [|i]; [reflexivity|]. simpl nth in *. apply IH. simpl in *. lia.
Qed.
Lemma removelast_len (l : vec) : length (removelast l) = (length l - 1)%nat.
Proof. induction l as [|a l IH]; auto. destruct l as [|b l]; auto. change (S (length (removelast (b :: l))) = (length (a :: b :: l) - 1)%nat). rewrite IH. simpl. lia. Qed.
Lemma diff_len l : length (diff l) = (length l - 1)%nat.
Proof. apply tab_length. Qed.
Lemma estimated_eq n sv k : length sv = n -> estimated_clusters n sv = Some k ->
  (3 <= n)%nat /\ (2 <= k <= n - 1)%nat /\
  forall l, (l < n - 2)%nat -> sv@l - sv@(l + 1) <= sv@(n - 1 - k) - sv@(n - k).
Proof.
  intros L. unfold estimated_clusters. cbv zeta. destruct (diff (removelast sv)) as [|a d] eqn:E; [discriminate|].
  rewrite <- E. assert (LD : length (diff (removelast sv)) = (n - 2)%nat) by (rewrite diff_len, removelast_len; lia).
  assert (N : (0 < n - 2)%nat) by (rewrite <- LD, E; simpl; lia).
  assert (NE : diff (removelast sv) <> []) by (rewrite E; discriminate).
  destruct (argmin_spec NE) as [A B]. rewrite LD in A. set (i := argmin _) in *. clearbody i. intros [= <-].
  split; [lia|]. split; [lia|]. intros l Hl. specialize (B l). rewrite LD in B. specialize (B Hl).
  unfold diff in B. rewrite !nth_tab in B by (rewrite removelast_len; lia). rewrite !removelast_nth in B by lia.
  replace (n - 1 - (n - i - 1))%nat with i by lia. replace (n - (n - i - 1))%nat with (i + 1)%nat by lia. lra.
Qed.
Lemma estimated_none n sv : length sv = n -> estimated_clusters n sv = None <-> (n < 3)%nat.
Proof.
  intros L. unfold estimated_clusters. cbv zeta. assert (LD : length (diff (removelast sv)) = (n - 2)%nat) by (rewrite diff_len, removelast_len; lia).
  destruct (diff (removelast sv)); simpl in LD; split; intros; try lia; try discriminate. auto.
Qed.
