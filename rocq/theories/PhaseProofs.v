(** Proofs about the grid of phase transition experiments. *)
From Coq Require Import List Arith ZArith QArith Qround Bool Lia Sorted Lqa.
From Verif Require Import PhaseModel PhaseSpec.
Import ListNotations.
Open Scope nat_scope.

Definition key_eq (a b : Q * Q) : Prop :=
  (fst a == fst b)%Q /\ (snd a == snd b)%Q.

Lemma key_eqb_iff a b : key_eqb a b = true <-> key_eq a b.
Proof.
  unfold key_eqb, key_eq. rewrite andb_true_iff, !Qeq_bool_iff. tauto.
Qed.

Lemma key_eq_refl a : key_eq a a.
Proof. split; reflexivity. Qed.

Lemma key_eq_sym a b : key_eq a b -> key_eq b a.
Proof. intros [H1 H2]; split; symmetry; auto. Qed.

Lemma key_eq_trans a b c : key_eq a b -> key_eq b c -> key_eq a c.
Proof. intros [H1 H2] [H3 H4]; split; etransitivity; eauto. Qed.

Lemma dict_get_set k v k' d :
  dict_get k' (dict_set k v d) = if key_eqb k' k then Some v else dict_get k' d.
Proof.
  induction d as [|[a w] d IH]; cbn [dict_set dict_get].
  - reflexivity.
  - destruct (key_eqb k a) eqn:E; cbn [dict_get].
    + destruct (key_eqb k' a) eqn:E1; destruct (key_eqb k' k) eqn:E2; auto.
      * apply key_eqb_iff in E, E1.
        assert (H : key_eqb k' k = true).
        { apply key_eqb_iff. eapply key_eq_trans; [exact E1|].
          apply key_eq_sym; exact E. }
        congruence.
      * apply key_eqb_iff in E, E2.
        assert (H : key_eqb k' a = true).
        { apply key_eqb_iff. eapply key_eq_trans; eauto. }
        congruence.
    + destruct (key_eqb k' a) eqn:E1.
      * destruct (key_eqb k' k) eqn:E2; auto.
        apply key_eqb_iff in E1, E2.
        assert (H : key_eqb k a = true).
        { apply key_eqb_iff. eapply key_eq_trans; [|exact E1].
          apply key_eq_sym; exact E2. }
        congruence.
      * exact IH.
Qed.

(** Number of entries of the dictionary. *)
Lemma dict_set_len k v d :
  length (dict_set k v d) =
  if dict_get k d then length d else S (length d).
Proof.
  induction d as [|[a w] d IH]; cbn [dict_set dict_get]; auto.
  destruct (key_eqb k a); cbn [length]; auto.
  rewrite IH. destruct (dict_get k d); auto.
Qed.

Lemma pair_in_iff p l : pair_in p l = true <-> In p l.
Proof.
  unfold pair_in. rewrite existsb_exists. split.
  - intros [q [H1 H2]]. apply andb_true_iff in H2.
    destruct H2 as [H2 H3]. apply Nat.eqb_eq in H2, H3.
    destruct p, q; cbn in *; subst; auto.
  - intros H. exists p. rewrite !Nat.eqb_refl. auto.
Qed.

(** ** The points the double loop visits *)
Definition pnt := (nat * Q * Q)%type.
Definition pM (p : pnt) := fst (fst p).
Definition pE (p : pnt) := snd (fst p).
Definition pR (p : pnt) := snd p.
Definition pK (p : pnt) :=
  Z.to_nat (Qceiling (pR p * inject_Z (Z.of_nat (pM p)))%Q).
Definition pconf (p : pnt) := mkPT (pK p) (pM p) (pE p) (pR p).
Definition ppair (p : pnt) := (pK p, pM p).
Definition pkey (p : pnt) := (pR p, pE p).
Definition cpair (c : pt_config) := (pt_K c, pt_M c).

Definition step3 (s : pt_state) (p : pnt) := pt_step (pM p) (pE p) s (pR p).
Definition s0 := mkPS [] [] [].
Definition run (l : list pnt) := fold_left step3 l s0.

Definition points (rhos : list Q) (MEs : list (nat * Q)) : list pnt :=
  flat_map (fun Me => map (fun r => (Me, r)) rhos) MEs.

Lemma row_run rhos Me s :
  pt_row rhos s Me = fold_left step3 (map (fun r => (Me, r)) rhos) s.
Proof.
  unfold pt_row. revert s.
  induction rhos as [|r rhos IH]; intros s; cbn [fold_left map].
  - reflexivity.
  - rewrite IH. reflexivity.
Qed.

Lemma nested_run rhos MEs s :
  fold_left (pt_row rhos) MEs s = fold_left step3 (points rhos MEs) s.
Proof.
  revert s. induction MEs as [|Me MEs IH]; intros s; auto.
  unfold points. cbn [flat_map fold_left]. rewrite fold_left_app, IH, row_run.
  reflexivity.
Qed.

Definition plt (p q : pnt) : Prop :=
  pM p < pM q \/ (pM p = pM q /\ (pR p < pR q)%Q).

Lemma plt_irrefl_key p q :
  plt p q -> (pE p == pE q -> pM p = pM q)%Q -> ~ key_eq (pkey p) (pkey q).
Proof.
  intros H HE [H1 H2]. cbn in *. destruct H as [H|[H H']].
  - specialize (HE H2). lia.
  - rewrite H1 in H'. apply Qlt_irrefl in H'. auto.
Qed.

Lemma Qlt_qle a b : (a < b -> a <= b)%Q.
Proof. apply Qlt_le_weak. Qed.

Lemma qn_nonneg a : (0 <= inject_Z (Z.of_nat a))%Q.
Proof.
  change 0%Q with (inject_Z 0). rewrite <- Zle_Qle. lia.
Qed.

Lemma pK_mono p q : pM p = pM q -> (pR p <= pR q)%Q -> pK p <= pK q.
Proof.
  intros HM HR. unfold pK.
  rewrite HM.
  assert (H : (Qceiling (pR p * inject_Z (Z.of_nat (pM q))) <=
           Qceiling (pR q * inject_Z (Z.of_nat (pM q))))%Z).
  { apply Qceiling_resp_le. apply Qmult_le_compat_r; auto. apply qn_nonneg. }
  lia.
Qed.

Lemma ss_app_inv {A} (Rl : A -> A -> Prop) l x :
  StronglySorted Rl (l ++ [x]) ->
  StronglySorted Rl l /\ Forall (fun a => Rl a x) l.
Proof.
  induction l as [|a l IH]; cbn; intros H.
  - split; constructor.
  - apply StronglySorted_inv in H. destruct H as [H1 H2].
    destruct (IH H1) as [H3 H4]. apply Forall_app in H2.
    destruct H2 as [H5 H6]. split; constructor; auto.
    inversion H6; auto.
Qed.

Lemma ss_app_one {A} (Rl : A -> A -> Prop) l x :
  StronglySorted Rl l -> Forall (fun a => Rl a x) l ->
  StronglySorted Rl (l ++ [x]).
Proof.
  induction l as [|a l IH]; cbn; intros H1 H2.
  - repeat constructor.
  - apply StronglySorted_inv in H1. destruct H1 as [H1 H3].
    inversion H2; subst. constructor.
    + apply IH; auto.
    + apply Forall_app; split; auto.
Qed.

Record pt_inv (l : list pnt) (s : pt_state) : Prop := {
  iv_added : forall p, In p (ps_added s) <-> In p (map cpair (ps_confs s));
  iv_from : forall c, In c (ps_confs s) -> exists p, In p l /\ c = pconf p /\
     forall q, In q l -> ppair q = ppair p -> (pR p <= pR q)%Q;
  iv_all : forall p, In p l -> In (ppair p) (map cpair (ps_confs s));
  iv_sorted : StronglySorted conf_lt (ps_confs s);
  iv_get : forall p, In p l -> dict_get (pkey p) (ps_map s) = Some (ppair p);
  iv_key : forall k v, dict_get k (ps_map s) = Some v ->
     exists p, In p l /\ key_eq k (pkey p) /\ v = ppair p;
  iv_len : length (ps_map s) = length l
}.

Lemma run_inv l :
  StronglySorted plt l ->
  (forall p q, In p l -> In q l -> (pE p == pE q)%Q -> pM p = pM q) ->
  pt_inv l (run l).
Proof.
  induction l as [|x l IH] using rev_ind; intros HS HE.
  - unfold run; cbn. constructor; cbn; try tauto; try discriminate.
    constructor.
  - destruct (ss_app_inv _ _ _ HS) as [HS1 HS2].
    rewrite Forall_forall in HS2.
    assert (IV : pt_inv l (run l)).
    { apply IH; auto. intros p q Hp Hq. apply HE; apply in_or_app; auto. }
    clear IH. unfold run. rewrite fold_left_app. cbn [fold_left].
    fold (run l). set (s := run l) in *.
    assert (HK : forall p, In p l -> ~ key_eq (pkey p) (pkey x)).
    { intros p Hp. apply plt_irrefl_key; [apply HS2; auto|].
      apply HE; apply in_or_app; cbn; auto. }
    assert (HR : forall p, In p l -> ppair x = ppair p -> (pR p <= pR x)%Q).
    { intros p Hp Hpp. destruct (HS2 p Hp) as [H|[_ H]].
      - injection Hpp; lia.
      - apply Qlt_le_weak; auto. }
    destruct IV as [V1 V2 V3 V4 V5 V6 V7].
    assert (W5 : forall p, In p (l ++ [x]) ->
       dict_get (pkey p) (dict_set (pkey x) (ppair x) (ps_map s))
       = Some (ppair p)).
    { intros p Hp. rewrite dict_get_set. apply in_app_iff in Hp.
      destruct Hp as [Hp|[->|[]]].
      - destruct (key_eqb (pkey p) (pkey x)) eqn:E; auto.
        apply key_eqb_iff in E. destruct (HK p Hp E).
      - replace (key_eqb (pkey p) (pkey p)) with true; auto.
        symmetry; apply key_eqb_iff, key_eq_refl. }
    assert (W6 : forall k v,
       dict_get k (dict_set (pkey x) (ppair x) (ps_map s)) = Some v ->
       exists p, In p (l ++ [x]) /\ key_eq k (pkey p) /\ v = ppair p).
    { intros k v. rewrite dict_get_set.
      destruct (key_eqb k (pkey x)) eqn:E; intros H.
      - injection H as <-. exists x. apply key_eqb_iff in E.
        split; [apply in_or_app; cbn; auto|auto].
      - destruct (V6 k v H) as [p [H1 [H2 H3]]]. exists p.
        split; [apply in_or_app; auto|auto]. }
    assert (W7 : length (dict_set (pkey x) (ppair x) (ps_map s))
                 = length (l ++ [x])).
    { rewrite dict_set_len, app_length. cbn [length].
      destruct (dict_get (pkey x) (ps_map s)) as [v|] eqn:E; [|lia].
      destruct (V6 _ _ E) as [p [H1 [H2 _]]].
      destruct (HK p H1 (key_eq_sym _ _ H2)). }
    unfold step3, pt_step. fold (pK x). fold (ppair x). fold (pkey x).
    destruct (pair_in (ppair x) (ps_added s)) eqn:E.
    + apply pair_in_iff, V1 in E.
      constructor; cbn [ps_added ps_confs ps_map]; auto.
      * intros c Hc. destruct (V2 c Hc) as [p [H1 [H2 H3]]].
        exists p. split; [apply in_or_app; auto|]. split; auto.
        intros q Hq Hqp. apply in_app_iff in Hq.
        destruct Hq as [Hq|[<-|[]]]; auto.
      * intros p Hp. apply in_app_iff in Hp.
        destruct Hp as [Hp|[<-|[]]]; auto.
    + assert (N : ~ In (ppair x) (map cpair (ps_confs s))).
      { intros H. apply V1 in H. apply pair_in_iff in H. congruence. }
      fold (pconf x).
      constructor; cbn [ps_added ps_confs ps_map]; auto.
      * intros p. rewrite map_app, in_app_iff. cbn [map In].
        change (cpair (mkPT (pK x) (pM x) (pE x) (pR x))) with (ppair x).
        rewrite V1. tauto.
      * intros c Hc. apply in_app_iff in Hc. destruct Hc as [Hc|[<-|[]]].
        -- destruct (V2 c Hc) as [p [H1 [H2 H3]]].
           exists p. split; [apply in_or_app; auto|]. split; auto.
           intros q Hq Hqp. apply in_app_iff in Hq.
           destruct Hq as [Hq|[<-|[]]]; auto.
        -- exists x. split; [apply in_or_app; cbn; auto|]. split; auto.
           intros q Hq Hqp. apply in_app_iff in Hq.
           destruct Hq as [Hq|[<-|[]]]; [|apply Qle_refl].
           exfalso. apply N. rewrite <- Hqp. auto.
      * intros p Hp. rewrite map_app. apply in_or_app.
        apply in_app_iff in Hp. destruct Hp as [Hp|[<-|[]]]; cbn; auto.
      * apply ss_app_one; auto. apply Forall_forall. intros c Hc.
        destruct (V2 c Hc) as [p [H1 [-> _]]]. unfold conf_lt; cbn.
        destruct (HS2 p H1) as [H|[H H']]; auto.
        right. split; auto.
        assert (pK p <= pK x) by (apply pK_mono; auto; apply Qlt_le_weak; auto).
        assert (pK p <> pK x); [|lia].
        intros HH. apply N. unfold ppair. rewrite <- HH, <- H. apply V3; auto.
Qed.

(** ** The grid *)
Lemma ss_map_seq {A} (Rl : A -> A -> Prop) (f : nat -> A) a n :
  (forall i j, a <= i < j -> j < a + n -> Rl (f i) (f j)) ->
  StronglySorted Rl (map f (seq a n)).
Proof.
  revert a. induction n as [|n IH]; intros a H; cbn; [constructor|].
  constructor.
  - apply IH. intros i j Hij Hj. apply H; lia.
  - apply Forall_forall. intros y Hy. apply in_map_iff in Hy.
    destruct Hy as [j [<- Hj]]. apply in_seq in Hj. apply H; lia.
Qed.

Lemma ss_app {A} (Rl : A -> A -> Prop) l1 l2 :
  StronglySorted Rl l1 -> StronglySorted Rl l2 ->
  (forall a b, In a l1 -> In b l2 -> Rl a b) -> StronglySorted Rl (l1 ++ l2).
Proof.
  induction l1 as [|a l1 IH]; cbn; intros H1 H2 H3; auto.
  apply StronglySorted_inv in H1. destruct H1 as [H1 H4].
  constructor.
  - apply IH; auto.
  - apply Forall_app; split; auto. apply Forall_forall. auto.
Qed.

Lemma ss_map {A B} (Ra : A -> A -> Prop) (Rb : B -> B -> Prop) (f : A -> B) l :
  (forall a b, Ra a b -> Rb (f a) (f b)) ->
  StronglySorted Ra l -> StronglySorted Rb (map f l).
Proof.
  intros H. induction 1 as [|a l H1 IH H2]; cbn; constructor; auto.
  apply Forall_forall. intros y Hy. apply in_map_iff in Hy.
  destruct Hy as [b [<- Hb]]. rewrite Forall_forall in H2. auto.
Qed.

Lemma points_sorted rhos MEs :
  StronglySorted Qlt rhos ->
  StronglySorted (fun a b : nat * Q => fst a < fst b) MEs ->
  StronglySorted plt (points rhos MEs).
Proof.
  intros HR. induction 1 as [|Me MEs H1 IH H2]; cbn; [constructor|].
  apply ss_app; auto.
  - eapply ss_map; [|exact HR]. intros a b Hab. right. cbn; auto.
  - intros a b Ha Hb. apply in_map_iff in Ha. destruct Ha as [r [<- _]].
    apply in_flat_map in Hb. destruct Hb as [Me' [H3 H4]].
    apply in_map_iff in H4. destruct H4 as [r' [<- _]].
    rewrite Forall_forall in H2. left. apply H2; auto.
Qed.

Lemma in_points rhos MEs p :
  In p (points rhos MEs) <-> In (fst p) MEs /\ In (snd p) rhos.
Proof.
  unfold points. rewrite in_flat_map. split.
  - intros [Me [H1 H2]]. apply in_map_iff in H2.
    destruct H2 as [r [<- H2]]. auto.
  - intros [H1 H2]. exists (fst p). split; auto. apply in_map_iff.
    exists (snd p). split; auto. destruct p; auto.
Qed.

Lemma points_len rhos MEs :
  length (points rhos MEs) = length MEs * length rhos.
Proof.
  induction MEs as [|Me MEs IH]; auto.
  change (points rhos (Me :: MEs))
    with (map (fun r => (Me, r)) rhos ++ points rhos MEs).
  unfold pnt in *. rewrite app_length, map_length, IH. cbn [length]. lia.
Qed.

Lemma combine_map {A B} (f : A -> B) l : combine l (map f l) = map (fun a => (a, f a)) l.
Proof. induction l; cbn; congruence. Qed.

Lemma m_min_pos N : 0 < m_min N.
Proof. unfold m_min. destruct (Nat.leb N 256); lia. Qed.

Lemma qn_pos a : 0 < a -> (0 < inject_Z (Z.of_nat a))%Q.
Proof. intros H. change 0%Q with (inject_Z 0). rewrite <- Zlt_Qlt. lia. Qed.

Lemma qn_le a b : a <= b <-> (inject_Z (Z.of_nat a) <= inject_Z (Z.of_nat b))%Q.
Proof. rewrite <- Zle_Qle. lia. Qed.

Lemma qn_lt a b : a < b <-> (inject_Z (Z.of_nat a) < inject_Z (Z.of_nat b))%Q.
Proof. rewrite <- Zlt_Qlt. lia. Qed.

Lemma qn_eq a b : a = b <-> (inject_Z (Z.of_nat a) == inject_Z (Z.of_nat b))%Q.
Proof. rewrite inject_Z_injective. lia. Qed.

Lemma rhos_sorted N : 0 < num_rhos N -> StronglySorted Qlt (pt_rhos N).
Proof.
  intros H. unfold pt_rhos. apply ss_map_seq. intros i j Hij _.
  apply Qlt_shift_div_l; [apply qn_pos; auto|].
  assert (E : ((1 # 2) * inject_Z (Z.of_nat i) / inject_Z (Z.of_nat (num_rhos N))
            * inject_Z (Z.of_nat (num_rhos N)) == (1#2) * inject_Z (Z.of_nat i))%Q).
  { field. intros E. pose proof (qn_pos _ H) as HH. rewrite E in HH.
    apply Qlt_irrefl in HH; auto. }
  rewrite E. apply Qmult_lt_l; [reflexivity|]. apply qn_lt. lia.
Qed.

Lemma Ms_sorted N :
  StronglySorted (fun a b : nat * Q => fst a < fst b)
    (combine (pt_Ms N) (pt_etas N)).
Proof.
  unfold pt_etas. rewrite combine_map. unfold pt_Ms. rewrite map_map.
  apply ss_map_seq. intros i j Hij _. cbn. pose proof (m_min_pos N). nia.
Qed.

Lemma qdiv_inj a b N : 0 < N -> (qdiv a N == qdiv b N)%Q -> a = b.
Proof.
  intros H E. unfold qdiv in E. apply qn_eq. pose proof (qn_pos _ H) as HP.
  assert (HN : ~ (inject_Z (Z.of_nat N) == 0)%Q).
  { intros E'. rewrite E' in HP. apply Qlt_irrefl in HP; auto. }
  transitivity (inject_Z (Z.of_nat a) / inject_Z (Z.of_nat N)
                * inject_Z (Z.of_nat N))%Q; [field; auto|].
  rewrite E. field; auto.
Qed.

Lemma grid_inv N :
  0 < N -> 0 < num_rhos N ->
  pt_inv (points (pt_rhos N) (combine (pt_Ms N) (pt_etas N)))
         (fold_left (pt_row (pt_rhos N)) (combine (pt_Ms N) (pt_etas N)) s0).
Proof.
  intros HN HR. rewrite nested_run. apply run_inv.
  - apply points_sorted; [apply rhos_sorted; auto|apply Ms_sorted].
  - intros p q Hp Hq. apply in_points in Hp, Hq.
    destruct Hp as [Hp _], Hq as [Hq _]. unfold pt_etas in *.
    rewrite combine_map in Hp, Hq. apply in_map_iff in Hp, Hq.
    destruct Hp as [a [Ha _]], Hq as [b [Hb _]].
    unfold pE, pM. rewrite <- Ha, <- Hb. cbn. apply qdiv_inj; auto.
Qed.

(** ** Admissible sizes *)
Lemma admissible_iff N :
  is_power_of_2 N && Nat.leb 32 N = true <-> admissible_N N.
Proof.
  unfold is_power_of_2, admissible_N.
  rewrite andb_true_iff, Nat.eqb_eq, Nat.leb_le. split.
  - intros [H1 H2]. exists (Nat.log2 N). split; auto.
    apply (Nat.log2_le_mono 32 N) in H2. exact H2.
  - intros [p [H ->]]. rewrite Nat.log2_pow2 by lia. split; auto.
    change 32 with (2 ^ 5). apply Nat.pow_le_mono_r; lia.
Qed.

(** All facts about an admissible size that the theorems use. *)
Lemma admissible_facts N : admissible_N N ->
  32 <= N /\ 0 < num_rhos N /\
  N = 2 * (num_etas N * m_min N) /\
  (exists q, m_min N = 2 * q /\ 0 < q).
Proof.
  intros [p [H ->]].
  assert (H32 : 32 <= 2 ^ p).
  { change 32 with (2 ^ 5). apply Nat.pow_le_mono_r; lia. }
  split; auto. split.
  { unfold num_rhos. apply Nat.min_glb_lt; [lia|].
    pose proof (Nat.div_le_mono 32 (2 ^ p) 4). cbn in *. lia. }
  split.
  - unfold num_etas. unfold m_min. destruct (Nat.leb (2 ^ p) 256) eqn:E.
    + replace (2 ^ p) with (2 ^ (p - 5) * 2 ^ 5).
      2:{ rewrite <- Nat.pow_add_r. f_equal. lia. }
      change (2 * 16) with (2 ^ 5). rewrite Nat.div_mul by (cbn; lia).
      change (2 ^ 5) with 32. lia.
    + apply Nat.leb_gt in E.
      assert (Hp : 9 <= p).
      { destruct (le_lt_dec 9 p); auto. exfalso.
        assert (2 ^ p <= 2 ^ 8) by (apply Nat.pow_le_mono_r; lia).
        change (2 ^ 8) with 256 in *. lia. }
      replace (2 ^ p) with (2 ^ (p - 6) * 2 ^ 6).
      2:{ rewrite <- Nat.pow_add_r. f_equal. lia. }
      change (2 * 32) with (2 ^ 6). rewrite Nat.div_mul by (cbn; lia).
      change (2 ^ 6) with 64. lia.
  - unfold m_min. destruct (Nat.leb (2 ^ p) 256); [exists 8|exists 16]; lia.
Qed.

Lemma in_Ms N M : admissible_N N -> In M (pt_Ms N) <-> admissible_M N M.
Proof.
  intros HA. destruct (admissible_facts _ HA) as [_ [_ [HN _]]].
  pose proof (m_min_pos N) as HM.
  unfold pt_Ms, admissible_M. change (step_M N) with (m_min N).
  rewrite in_map_iff. split.
  - intros [j [<- Hj]]. apply in_seq in Hj. exists j.
    split; [lia|]. split; auto.
    assert (j * m_min N <= num_etas N * m_min N)
      by (apply Nat.mul_le_mono_r; lia). lia.
  - intros [j [H1 [-> H2]]]. exists j. split; auto. apply in_seq.
    split; auto. nia.
Qed.

Lemma in_etas N eta : admissible_N N ->
  (exists e, In e (pt_etas N) /\ (e == eta)%Q) <-> admissible_eta N eta.
Proof.
  intros HA. unfold pt_etas, admissible_eta. split.
  - intros [e [H1 H2]]. apply in_map_iff in H1.
    destruct H1 as [M [<- HM]]. apply in_Ms in HM; auto.
    exists M. split; auto. symmetry; exact H2.
  - intros [M [HM HE]]. exists (qdiv M N). split.
    + apply in_map_iff. exists M. split; auto. apply in_Ms; auto.
    + symmetry; exact HE.
Qed.

Lemma rho_val j n : 0 < n ->
  ((1 # 2) * inject_Z (Z.of_nat j) / inject_Z (Z.of_nat n)
   == qn j / qn (2 * n))%Q.
Proof.
  intros H. unfold qn. rewrite Nat2Z.inj_mul, inject_Z_mult.
  change (inject_Z (Z.of_nat 2)) with 2%Q. field.
  intros E. pose proof (qn_pos _ H) as HP. rewrite E in HP.
  apply Qlt_irrefl in HP; auto.
Qed.

Lemma in_rhos N rho : admissible_N N ->
  (exists r, In r (pt_rhos N) /\ (r == rho)%Q) <-> admissible_rho N rho.
Proof.
  intros HA. destruct (admissible_facts _ HA) as [_ [HR _]].
  unfold pt_rhos, admissible_rho. change (levels N) with (num_rhos N). split.
  - intros [r [H1 H2]]. apply in_map_iff in H1.
    destruct H1 as [j [<- Hj]]. apply in_seq in Hj. exists j.
    split; [lia|]. rewrite <- H2. apply rho_val; auto.
  - intros [j [H1 H2]]. eexists. split.
    + apply in_map_iff. exists j. split; [reflexivity|]. apply in_seq. lia.
    + rewrite H2. apply rho_val; auto.
Qed.

Lemma ceil_up rho M : (0 <= rho)%Q ->
  rounds_up (Z.to_nat (Qceiling (rho * inject_Z (Z.of_nat M))%Q)) rho M.
Proof.
  intros H. unfold rounds_up, qn.
  set (x := (rho * inject_Z (Z.of_nat M))%Q).
  assert (Hx : (0 <= x)%Q).
  { unfold x. apply Qmult_le_0_compat; auto. apply qn_nonneg. }
  assert (Hc : (0 <= Qceiling x)%Z).
  { assert ((0 <= inject_Z (Qceiling x))%Q).
    { eapply Qle_trans; [exact Hx|apply Qle_ceiling]. }
    change 0%Q with (inject_Z 0) in H0. rewrite <- Zle_Qle in H0. auto. }
  rewrite Z2Nat.id by auto. split; [|apply Qle_ceiling].
  pose proof (Qceiling_lt x) as HH. unfold Z.sub in HH.
  rewrite inject_Z_plus in HH. exact HH.
Qed.

Lemma rounds_up_unique K K' rho rho' M :
  (rho == rho')%Q -> rounds_up K rho M -> rounds_up K' rho' M -> K = K'.
Proof.
  intros E [H1 H2] [H3 H4]. rewrite E in H1, H2.
  assert (A : (qn K - 1 < qn K')%Q) by (eapply Qlt_le_trans; eauto).
  assert (B : (qn K' - 1 < qn K)%Q) by (eapply Qlt_le_trans; eauto).
  unfold qn in *.
  assert (A' : (inject_Z (Z.of_nat K) < inject_Z (Z.of_nat (K' + 1)))%Q).
  { rewrite Nat2Z.inj_add, inject_Z_plus. change (inject_Z (Z.of_nat 1)) with 1%Q. lra. }
  assert (B' : (inject_Z (Z.of_nat K') < inject_Z (Z.of_nat (K + 1)))%Q).
  { rewrite Nat2Z.inj_add, inject_Z_plus. change (inject_Z (Z.of_nat 1)) with 1%Q. lra. }
  apply qn_lt in A', B'. lia.
Qed.

(** K is the rounded up quotient j M / (2 n). *)
Lemma rounds_nat K rho M j n : 0 < n -> (rho == qn j / qn (2 * n))%Q ->
  rounds_up K rho M <-> K * (2 * n) < j * M + 2 * n /\ j * M <= K * (2 * n).
Proof.
  intros Hn E. unfold rounds_up. rewrite E.
  assert (HP : (0 < qn (2 * n))%Q) by (apply qn_pos; lia).
  assert (HQ : (qn j / qn (2 * n) * qn M == qn (j * M) / qn (2 * n))%Q).
  { unfold qn at 4. rewrite Nat2Z.inj_mul, inject_Z_mult. fold (qn j) (qn M).
    field. intros E'. rewrite E' in HP. apply Qlt_irrefl in HP; auto. }
  rewrite HQ.
  assert (EK : (qn (K * (2 * n)) == qn K * qn (2 * n))%Q).
  { unfold qn. rewrite Nat2Z.inj_mul, inject_Z_mult. reflexivity. }
  assert (ES : (qn (j * M + 2 * n) == qn (j * M) + qn (2 * n))%Q).
  { unfold qn. rewrite Nat2Z.inj_add, inject_Z_plus. reflexivity. }
  assert (I1 : (qn K - 1 < qn (j * M) / qn (2 * n))%Q <->
               K * (2 * n) < j * M + 2 * n).
  { rewrite (qn_lt (K * (2 * n))). fold (qn (K * (2 * n))) (qn (j * M + 2 * n)).
    rewrite EK, ES. split; intros H.
    - assert (H' : ((qn K - 1) * qn (2 * n) <
                    qn (j * M) / qn (2 * n) * qn (2 * n))%Q)
        by (apply Qmult_lt_r; auto).
      assert (E2 : (qn (j * M) / qn (2 * n) * qn (2 * n) == qn (j * M))%Q).
      { field. intros E'. rewrite E' in HP. apply Qlt_irrefl in HP; auto. }
      rewrite E2 in H'. lra.
    - apply Qlt_shift_div_l; auto. lra. }
  assert (I2 : (qn (j * M) / qn (2 * n) <= qn K)%Q <->
               j * M <= K * (2 * n)).
  { rewrite (qn_le (j * M)). fold (qn (K * (2 * n))) (qn (j * M)).
    rewrite EK. split; intros H.
    - assert (H' : (qn (j * M) / qn (2 * n) * qn (2 * n) <=
                    qn K * qn (2 * n))%Q)
        by (apply Qmult_le_compat_r; auto; apply Qlt_le_weak; auto).
      assert (E2 : (qn (j * M) / qn (2 * n) * qn (2 * n) == qn (j * M))%Q).
      { field. intros E'. rewrite E' in HP. apply Qlt_irrefl in HP; auto. }
      rewrite E2 in H'. auto.
    - apply Qle_shift_div_r; auto. }
  tauto.
Qed.

Lemma admissible_rho_nonneg N rho : admissible_rho N rho -> (0 <= rho)%Q.
Proof.
  intros [j [H1 H2]]. rewrite H2. apply Qle_shift_div_l.
  - apply qn_pos. lia.
  - rewrite Qmult_0_l. apply qn_nonneg.
Qed.

Lemma in_grid N p : admissible_N N ->
  In p (points (pt_rhos N) (combine (pt_Ms N) (pt_etas N))) ->
  admissible_M N (pM p) /\ pE p = qdiv (pM p) N /\ admissible_rho N (pR p).
Proof.
  intros HA Hp. apply in_points in Hp. destruct Hp as [Hp HR].
  unfold pt_etas in Hp. rewrite combine_map in Hp. apply in_map_iff in Hp.
  destruct Hp as [M [H1 H2]]. unfold pM, pE. rewrite <- H1. cbn.
  split; [apply in_Ms; auto|]. split; auto.
  apply in_rhos; auto. exists (snd p). split; auto. reflexivity.
Qed.

Lemma configuration_some N pc : configuration N = Some pc ->
  admissible_N N /\
  pc = mkPTC N
   (ps_confs (fold_left (pt_row (pt_rhos N)) (combine (pt_Ms N) (pt_etas N)) s0))
   (pt_Ms N) (pt_etas N) (pt_rhos N)
   (ps_map (fold_left (pt_row (pt_rhos N)) (combine (pt_Ms N) (pt_etas N)) s0)).
Proof.
  unfold configuration. destruct (_ && _) eqn:E; [|discriminate].
  intros H. injection H as <-. split; auto. apply admissible_iff; auto.
Qed.

Lemma config_ok N pc c : configuration N = Some pc ->
  In c (pc_configurations pc) ->
  1 <= pt_K c /\ 2 * pt_K c <= pt_M c /\ 2 * pt_M c <= N /\
  admissible_M N (pt_M c) /\ admissible_rho N (pt_rho c) /\
  (pt_eta c == qn (pt_M c) / qn N)%Q /\
  rounds_up (pt_K c) (pt_rho c) (pt_M c) /\
  dict_get (pt_rho c, pt_eta c) (pc_map pc) = Some (pt_K c, pt_M c) /\
  (forall rho, admissible_rho N rho -> rounds_up (pt_K c) rho (pt_M c) ->
     (pt_rho c <= rho)%Q).
Proof.
  intros HC Hc. apply configuration_some in HC. destruct HC as [HA ->].
  destruct (admissible_facts _ HA) as [H32 [HR [HN [q [Hq Hq0]]]]].
  destruct (grid_inv N) as [V1 V2 V3 V4 V5 V6 V7]; [lia|auto|].
  cbn [pc_configurations pc_map] in *.
  destruct (V2 c Hc) as [p [Hp [-> Hmin]]]. cbn [pconf pt_K pt_M pt_eta pt_rho].
  destruct (in_grid N p HA Hp) as [GM [GE GR]].
  assert (GK : rounds_up (pK p) (pR p) (pM p)).
  { apply ceil_up. eapply admissible_rho_nonneg; eauto. }
  pose proof GM as [i [Hi [EM HM2]]]. change (step_M N) with (m_min N) in EM.
  pose proof GR as [j [Hj Ej]]. change (levels N) with (num_rhos N) in *.
  pose proof GK as GK'. rewrite (rounds_nat _ _ _ j (num_rhos N)) in GK' by auto.
  destruct GK' as [G1 G2].
  split.
  { destruct (pK p); [|lia]. exfalso. nia. }
  split.
  { rewrite EM, Hq in *. set (n := num_rhos N) in *. set (K := pK p) in *.
    assert (j * (i * (2 * q)) <= n * (i * (2 * q))) by (apply Nat.mul_le_mono_r; lia).
    assert (K * (2 * n) < n * (i * (2 * q)) + 2 * n) by lia.
    assert (2 * n * K < 2 * n * (i * q + 1)) by nia.
    assert (K < i * q + 1) by nia. nia. }
  split; auto. split; auto. split; auto.
  split; [rewrite GE; reflexivity|]. split; auto.
  split; [exact (V5 p Hp)|].
  intros rho Hr Hk.
  destruct (proj2 (in_rhos N rho HA) Hr) as [r [Hr1 Hr2]].
  rewrite <- Hr2. apply (Hmin (fst p, r)).
  - apply in_points in Hp. apply in_points. cbn. tauto.
  - unfold ppair. f_equal. symmetry.
    apply (rounds_up_unique _ _ rho r (pM p)); auto.
    + symmetry; auto.
    + unfold pK, pM, pR; cbn [fst snd]. apply ceil_up. rewrite Hr2.
      eapply admissible_rho_nonneg; eauto.
Qed.

Lemma conf_sorted N pc : configuration N = Some pc ->
  StronglySorted conf_lt (pc_configurations pc).
Proof.
  intros HC. apply configuration_some in HC. destruct HC as [HA ->].
  destruct (admissible_facts _ HA) as [H32 [HR [HN _]]].
  destruct (grid_inv N) as [V1 V2 V3 V4 V5 V6 V7]; [lia|auto|]. exact V4.
Qed.

Lemma ss_nodup l : StronglySorted conf_lt l -> NoDup (map cpair l).
Proof.
  induction 1 as [|c l H1 IH H2]; cbn; constructor; auto.
  intros H. apply in_map_iff in H. destruct H as [d [H3 H4]].
  rewrite Forall_forall in H2. specialize (H2 d H4).
  unfold conf_lt in H2. injection H3. lia.
Qed.

Lemma grid_complete N pc rho eta : configuration N = Some pc ->
  admissible_rho N rho -> admissible_eta N eta ->
  exists K M, dict_get (rho, eta) (pc_map pc) = Some (K, M) /\
    (eta == qn M / qn N)%Q /\ rounds_up K rho M /\
    exists c, In c (pc_configurations pc) /\ pt_K c = K /\ pt_M c = M.
Proof.
  intros HC Hr He. apply configuration_some in HC. destruct HC as [HA ->].
  destruct (admissible_facts _ HA) as [H32 [HR [HN _]]].
  destruct (grid_inv N) as [V1 V2 V3 V4 V5 V6 V7]; [lia|auto|].
  cbn [pc_configurations pc_map].
  destruct (proj2 (in_rhos N rho HA) Hr) as [r [Hr1 Hr2]].
  destruct He as [M [HM HE]].
  set (p := ((M, qdiv M N), r) : pnt).
  assert (Hp : In p (points (pt_rhos N) (combine (pt_Ms N) (pt_etas N)))).
  { apply in_points. split; auto. unfold pt_etas. rewrite combine_map.
    apply in_map_iff. exists M. split; auto. apply in_Ms; auto. }
  exists (pK p), M. split; [|split; [auto|split]].
  - pose proof (V5 p Hp) as H5.
    assert (KE : key_eq (rho, eta) (pkey p)).
    { split; cbn; [symmetry; auto|auto]. }
    change (Some (pK p, M)) with (Some (ppair p)). rewrite <- H5.
    clear - KE. set (d := ps_map _). clearbody d.
    induction d as [|[k v] d IH]; cbn [dict_get]; auto. rewrite IH.
    destruct (key_eqb (rho, eta) k) eqn:E1, (key_eqb (pkey p) k) eqn:E2; auto.
    + apply key_eqb_iff in E1.
      assert (key_eqb (pkey p) k = true); [|congruence].
      apply key_eqb_iff. eapply key_eq_trans; [apply key_eq_sym; eauto|auto].
    + apply key_eqb_iff in E2.
      assert (key_eqb (rho, eta) k = true); [|congruence].
      apply key_eqb_iff. eapply key_eq_trans; eauto.
  - assert (H : rounds_up (pK p) r M).
    { apply ceil_up. rewrite Hr2. eapply admissible_rho_nonneg; eauto. }
    destruct H as [H1 H2]. unfold rounds_up. rewrite <- Hr2. auto.
  - pose proof (V3 p Hp) as H. apply in_map_iff in H.
    destruct H as [c [H1 H2]]. exists c. split; auto.
    unfold cpair, ppair in H1. injection H1 as E1 E2. auto.
Qed.

Lemma grid_sound N pc rho eta v : configuration N = Some pc ->
  dict_get (rho, eta) (pc_map pc) = Some v ->
  admissible_rho N rho /\ admissible_eta N eta.
Proof.
  intros HC Hv. apply configuration_some in HC. destruct HC as [HA ->].
  destruct (admissible_facts _ HA) as [H32 [HR [HN _]]].
  destruct (grid_inv N) as [V1 V2 V3 V4 V5 V6 V7]; [lia|auto|].
  cbn [pc_map] in Hv. destruct (V6 _ _ Hv) as [p [Hp [[K1 K2] _]]].
  cbn in K1, K2. apply in_points in Hp. destruct Hp as [P1 P2].
  split.
  - apply in_rhos; auto. exists (pR p). split; auto. symmetry; auto.
  - apply in_etas; auto. exists (pE p). split; [|symmetry; auto].
    destruct p as [[M E] r]; cbn in *. eapply in_combine_r; eauto.
Qed.

Lemma grid_size N pc : configuration N = Some pc ->
  length (pc_map pc) = length (pc_rhos pc) * length (pc_etas pc).
Proof.
  intros HC. apply configuration_some in HC. destruct HC as [HA ->].
  destruct (admissible_facts _ HA) as [H32 [HR [HN _]]].
  destruct (grid_inv N) as [V1 V2 V3 V4 V5 V6 V7]; [lia|auto|].
  cbn [pc_map pc_rhos pc_etas]. rewrite V7, points_len.
  unfold pt_etas. rewrite combine_map, !map_length. lia.
Qed.

(** When there are at least M/2 levels, every sparsity up to M/2 occurs. *)
Lemma all_sparsities N pc M K : configuration N = Some pc ->
  admissible_M N M -> M <= 2 * levels N ->
  (exists c, In c (pc_configurations pc) /\ pt_K c = K /\ pt_M c = M) <->
  1 <= K /\ 2 * K <= M.
Proof.
  intros HC HM Hl. split.
  - intros [c [Hc [<- <-]]].
    destruct (config_ok N pc c HC Hc) as [H1 [H2 _]]. auto.
  - intros [H1 H2].
    pose proof (configuration_some _ _ HC) as [HA _].
    destruct (admissible_facts _ HA) as [H32 [HR [HN [q [Hq Hq0]]]]].
    change (levels N) with (num_rhos N) in *. set (n := num_rhos N) in *.
    assert (HM0 : 0 < M). { destruct HM as [j [Hj [E _]]]. lia. }
    (* the level: j = floor (K 2n / M) *)
    set (j := K * (2 * n) / M).
    pose proof (Nat.div_mod (K * (2 * n)) M ltac:(lia)) as HD.
    pose proof (Nat.mod_upper_bound (K * (2 * n)) M ltac:(lia)) as HU.
    fold j in HD.
    assert (J1 : 1 <= j).
    { apply Nat.div_le_lower_bound; nia. }
    assert (J2 : j <= n).
    { apply Nat.div_le_upper_bound; nia. }
    assert (HRr : admissible_rho N (qn j / qn (2 * n))).
    { exists j. split; [split; auto|reflexivity]. }
    assert (HE : admissible_eta N (qn M / qn N)).
    { exists M. split; auto. reflexivity. }
    destruct (grid_complete N pc _ _ HC HRr HE)
      as [K' [M' [_ [E1 [E2 [c [C1 [C2 C3]]]]]]]].
    assert (HNp : 0 < N) by lia.
    assert (M = M') by (apply (qdiv_inj M M' N HNp); exact E1). subst M'.
    exists c. split; auto. split; auto. rewrite C2.
    rewrite (rounds_nat _ _ _ j (n)) in E2 by (auto; reflexivity).
    destruct E2 as [E2 E3].
    assert (HK : j * M <= K * (2 * n)) by nia.
    assert (HK' : K * (2 * n) < j * M + 2 * n) by nia.
    assert (K' * (2 * n) < (K + 1) * (2 * n)) by nia.
    assert (K * (2 * n) < (K' + 1) * (2 * n)) by nia.
    assert (K' < K + 1) by nia. assert (K < K' + 1) by nia. lia.
Qed.

(** When there are at most M/2 levels, the levels give different sparsities. *)
Lemma levels_distinct N pc M j1 j2 K : configuration N = Some pc ->
  admissible_M N M -> 2 * levels N <= M ->
  1 <= j1 <= levels N -> 1 <= j2 <= levels N ->
  rounds_up K (qn j1 / qn (2 * levels N)) M ->
  rounds_up K (qn j2 / qn (2 * levels N)) M -> j1 = j2.
Proof.
  intros HC HM Hl H1 H2 R1 R2.
  rewrite (rounds_nat _ _ _ j1 (levels N)) in R1 by (try reflexivity; lia).
  rewrite (rounds_nat _ _ _ j2 (levels N)) in R2 by (try reflexivity; lia).
  destruct (lt_eq_lt_dec j1 j2) as [[H|H]|H]; auto; exfalso.
  - assert ((j1 + 1) * M <= j2 * M) by (apply Nat.mul_le_mono_r; lia). nia.
  - assert ((j2 + 1) * M <= j1 * M) by (apply Nat.mul_le_mono_r; lia). nia.
Qed.

Lemma rejects N : configuration N = None <-> ~ admissible_N N.
Proof.
  rewrite <- admissible_iff. unfold configuration.
  destruct (_ && _); split; intros; try discriminate; auto; congruence.
Qed.
