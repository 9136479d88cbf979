(** Conjugate gradients on complex data. *)
From Coq Require Import List Arith Bool Lia Reals Lra Psatz.
From Verif Require Import Scalar Vec RVec RMat Loop LoopLemmas SolverSpec SolverLemmas LopSpec OptProofs CGModel CGSpec CGProofs CxSpec CxProofs CxCgModel.
Import ListNotations.
Set Implicit Arguments.
Unset Strict Implicit.
Local Open Scope R_scope.

Lemma inner_self_real (x : cvec) : snd (inner x x : Cx) = 0.
Proof. induction x as [|a x IH]; simpl; [reflexivity|]. rewrite IH. ring. Qed.
Lemma inner_self (x : cvec) : fst (inner x x : Cx) = cnsq x.
Proof. rewrite <- flat_dot. apply flat_nrm2. Qed.
Lemma lift_linear n m (f : cvec -> cvec) : maps_dim m n f -> is_linear n f -> linear_op (2 * n) (2 * m) (lift f).
Proof.
  intros D [Fa Fs]. split; [|split].
  - intros v Lv. unfold lift. rewrite flat_len, D; [reflexivity|now apply unflat_len].
  - intros v w Lv Lw. rewrite <- (flat_unflat Lv), <- (flat_unflat Lw), <- flat_add, !lift_flat, Fa by now apply unflat_len. apply flat_add.
  - intros c v Lv. rewrite <- (flat_unflat Lv), <- flat_scale, !lift_flat, Fs by now apply unflat_len. apply flat_scale.
Qed.
Section Pcg.
  Variables (n : nat) (A : cvec -> cvec) (M : option (cvec -> cvec)) (b x0 : cvec) (mx : nat) (tol atol : R).
  Hypothesis DA : maps_dim n n A.
  Hypothesis LA : is_linear n A.
  Hypothesis DM : maps_dim n n (cpcg_M M).
  Hypothesis Lb : length b = n.
  Hypothesis Lx : length x0 = n.
  Notation Mf := (cpcg_M M).
  Definition cp_ok (s : cpcg_state) : Prop :=
    length (cp_x s) = n /\ length (cp_p s) = n /\ cp_r s = vsub b (A (cp_x s)) /\ ((1 < cp_it s)%nat -> cp_gamma s = fst (inner (cp_r s) (Mf (cp_r s)) : Cx)).
  Lemma cp_r_len s : cp_ok s -> length (cp_r s) = n.
  Proof. intros (L1 & _ & -> & _). apply vsub_length; auto. Qed.
  Lemma cp_ok_init : cp_ok (cpcg_init A Mf b x0).
  Proof.
    unfold cpcg_init. split; [exact Lx|]. split; [|split; [reflexivity|simpl; lia]]. cbn [cp_p]. apply DM. apply vsub_length; auto.
  Qed.
  Lemma cp_ok_step s s' : cp_ok s -> (1 <= cp_it s)%nat -> cpcg_body A Mf s = Some s' -> cp_ok s' /\ cp_it s' = S (cp_it s).
  Proof.
    intros K I1. pose proof (cp_r_len K) as Lr. destruct K as (L1 & L2 & Er & _). unfold cpcg_body.
    destruct (cdivo _ _) as [alpha|]; [|discriminate]. destruct (rdivo _ _) as [beta|]; [|discriminate]. intros E. injection E as <-. split; [|reflexivity].
    pose proof (DA L2) as L3. assert (Lr' : length (vsub (cp_r s) (vscale alpha (A (cp_p s)))) = n) by (apply vsub_length; [auto|now rewrite vscale_length]).
    pose proof (DM Lr') as Lz. split; [|split; [|split]]; cbn [cp_x cp_p cp_r cp_gamma cp_it].
    - apply vadd_length; [auto|now rewrite vscale_length].
    - apply vadd_length; [auto|now rewrite vscale_length].
    - destruct LA as [La Ls]. rewrite La, Ls by (rewrite ?vscale_length; auto). rewrite Er. clear - L1 L2 L3 DA Lb.
      assert (L4 : length (A (cp_x s)) = n) by auto. assert (L5 : length (vscale alpha (A (cp_p s))) = n) by now rewrite vscale_length.
      set (u := A (cp_x s)) in *. set (v := vscale alpha (A (cp_p s))) in *. clearbody u v. apply flat_inj. rewrite !flat_sub, flat_add.
      pose proof (flat_len b). pose proof (flat_len u). pose proof (flat_len v). veq.
    - reflexivity.
  Qed.
  Notation cond := (cpcg_cond (cpcg_is_id M) (cpcg_max_gamma b tol atol) mx).
  Lemma cp_reach k s : reaches cond (cpcg_body A Mf) (cpcg_init A Mf b x0) k s -> cp_ok s /\ cp_it s = S k.
  Proof.
    induction 1 as [|k s s' H [IH I] C B]; [split; [apply cp_ok_init|reflexivity]|]. destruct (cp_ok_step IH ltac:(lia) B) as [K E]. split; auto. lia.
  Qed.
  Lemma cp_done fuel s : cpcg_solve_from A b x0 mx tol atol M fuel = Done s -> cp_ok s /\ (1 <= cp_it s)%nat /\ (cp_it s <= Nat.max 1 mx)%nat /\ cond s = false.
  Proof.
    unfold cpcg_solve_from. intros H.
    destruct (@while_inv _ cond (cpcg_body A Mf) (fun s => cp_ok s /\ (1 <= cp_it s)%nat /\ (cp_it s <= Nat.max 1 mx)%nat)) with (fuel := fuel) (s := cpcg_init A Mf b x0) (s' := s) as [(K & I1 & I2) C]; auto.
    - intros s1 s2 (K & I1 & I2) C B. destruct (cp_ok_step K I1 B) as [K' E]. split; auto. unfold cpcg_cond in C. apply andb_prop in C as [_ C]. apply Nat.ltb_lt in C. lia.
    - split; [apply cp_ok_init|]. unfold cpcg_init. cbn [cp_it]. lia.
  Qed.
  Lemma cp_exit fuel s : cpcg_solve_from A b x0 mx tol atol M fuel = Done s ->
    cp_r s = vsub b (A (cp_x s)) /\ (cp_it s <= Nat.max 1 mx)%nat /\
    ((mx <= cp_it s)%nat \/ cpcg_is_id M = true /\ cp_it s = 1%nat \/ cnsq (vsub b (A (cp_x s))) <= Rmax (tol * tol * cnsq b) (atol * atol)).
  Proof.
    intros H. destruct (cp_done H) as (K & I1 & I2 & C). pose proof K as (L1 & L2 & Er & Eg). split; auto. split; auto.
    unfold cpcg_cond in C. destruct (Nat.ltb_spec (cp_it s) mx) as [Hm|Hm]; [|left; lia]. right. rewrite andb_true_r in C. unfold cpcg_max_gamma in C. rewrite inner_self in C.
    rewrite Er in *. destruct (cpcg_is_id M) eqn:EM.
    - destruct (Nat.eq_dec (cp_it s) 1) as [E1|E1]; [left; auto|]. right. rewrite Eg in C by lia.
      assert (EMf : Mf = fun x => x) by (unfold cpcg_is_id in EM; destruct M; [discriminate|reflexivity]). rewrite EMf, inner_self in C.
      match type of C with Rltb ?a ?b = _ => destruct (Rltb_spec a b) end; [discriminate|lra].
    - right. rewrite inner_self in C. match type of C with Rltb ?a ?b = _ => destruct (Rltb_spec a b) end; [discriminate|lra].
  Qed.
  (** Hermitian operators and a real initial residual: the run is one of the real solver *)
  Hypothesis HA : is_adjoint n n A A.
  Hypothesis HM : is_adjoint n n Mf Mf.
  Hypothesis R0 : is_real_vec (vsub b (A x0)).
  Definition fl_cp (s : cpcg_state) : pcg_state := PCGState (flat (cp_x s)) (flat (cp_r s)) (flat (cp_p s)) (cp_gamma s) (cp_it s).
  Lemma dotu_real (r z : cvec) : is_real_vec r -> dotu r z = inner r z.
  Proof.
    revert z. induction r as [|a r IH]; intros [|c z] H; auto. cbn [dotu inner]. rewrite IH by (intros d D; apply H; now right). rewrite (H a (or_introl eq_refl)). reflexivity.
  Qed.
  Definition liftM : option (vec -> vec) := match M with None => None | Some m => Some (lift m) end.
  Lemma liftM_apply v : length v = (2 * n)%nat -> pcg_M liftM v = lift Mf v.
  Proof. intros Lv. unfold liftM, cpcg_M. destruct M; [reflexivity|]. simpl. unfold lift. symmetry. eapply flat_unflat; eauto. Qed.
  Lemma liftM_flat x : pcg_M liftM (flat x) = flat (Mf x).
  Proof. unfold liftM, cpcg_M. destruct M; simpl; [apply lift_flat|reflexivity]. Qed.
  Lemma liftM_id : pcg_is_id liftM = cpcg_is_id M.
  Proof. unfold liftM. now destruct M. Qed.
  Lemma fl_cp_init : pcg_init (lift A) (pcg_M liftM) (flat b) (flat x0) = fl_cp (cpcg_init A Mf b x0).
  Proof.
    unfold pcg_init, fl_cp, cpcg_init. cbn [cp_x cp_r cp_p cp_gamma cp_it]. rewrite lift_flat, <- flat_sub, liftM_flat, flat_dot, dotu_real by auto. reflexivity.
  Qed.
  Lemma fl_cp_cond s : pcg_cond (pcg_is_id liftM) (pcg_max_gamma (flat b) tol atol) mx (fl_cp s) = cond s.
  Proof.
    unfold pcg_cond, cpcg_cond, pcg_max_gamma, cpcg_max_gamma. rewrite liftM_id. cbn [fl_cp pcg_r pcg_gamma pcg_it]. rewrite !flat_dot. reflexivity.
  Qed.
  Lemma herm_real p : length p = n -> snd (inner p (A p) : Cx) = 0.
  Proof.
    intros Lp. destruct HA as (_ & _ & H). pose proof (@inner_sym Cs (A p) p) as S. rewrite (H p p Lp Lp) in S.
    apply (f_equal (fun z : Cx => snd z)) in S. cbn [star Cs Cconj snd] in S. lra.
  Qed.
  Lemma fl_cp_body s : length (cp_p s) = n -> pcg_body (lift A) (pcg_M liftM) (fl_cp s) = option_map fl_cp (cpcg_body A Mf s).
  Proof.
    intros Lp. unfold pcg_body, cpcg_body. change (pcg_x (fl_cp s)) with (flat (cp_x s)). change (pcg_r (fl_cp s)) with (flat (cp_r s)). change (pcg_p (fl_cp s)) with (flat (cp_p s)).
    change (pcg_gamma (fl_cp s)) with (cp_gamma s). change (pcg_it (fl_cp s)) with (cp_it s).
    rewrite lift_flat, flat_dot. pose proof (herm_real Lp) as Hr. destruct (inner (cp_p s) (A (cp_p s)) : Cx) as [c d]. cbn [fst snd] in *. subst d.
    unfold cdivo. cbn [fst snd]. assert (T : Reqb 0 0 = true) by (unfold Reqb; destruct (Req_EM_T 0 0); auto; lra). rewrite T, andb_true_r.
    unfold fdiv at 1. unfold Reqb at 1 2. destruct (Req_EM_T c 0) as [Hc|Hc]; [reflexivity|].
    assert (Ea : sdiv (ofR (cp_gamma s) : Cs) ((c, 0) : Cs) = ofR (cp_gamma s / c)).
    { cbn [sdiv Cs ofR]. unfold Cdiv, Cmul, Cinv, Cnsq. cbn [fst snd]. f_equal; field; auto. }
    rewrite Ea, <- !flat_scale, <- flat_sub, <- flat_add, liftM_flat, flat_dot. unfold fdiv, rdivo. destruct (Reqb (cp_gamma s) 0); [reflexivity|].
    cbn [option_map]. unfold fl_cp. cbn [cp_x cp_r cp_p cp_gamma cp_it]. rewrite <- flat_scale, <- flat_add. reflexivity.
  Qed.
  Lemma fl_cp_while fuel : forall s, cp_ok s -> (1 <= cp_it s)%nat -> while_ (pcg_cond (pcg_is_id liftM) (pcg_max_gamma (flat b) tol atol) mx) (pcg_body (lift A) (pcg_M liftM)) fuel (fl_cp s)
    = match while_ cond (cpcg_body A Mf) fuel s with Done s => Done (fl_cp s) | Fail => Fail | Fuel => Fuel end.
  Proof.
    induction fuel as [|f IH]; intros s K I1; cbn [while_]; rewrite fl_cp_cond; destruct (cond s); auto. rewrite fl_cp_body by apply K.
    destruct (cpcg_body A Mf s) as [s'|] eqn:B; cbn [option_map]; auto. destruct (cp_ok_step K I1 B) as [K' E]. apply IH; auto. lia.
  Qed.
  Lemma fl_cp_run fuel : pcg_solve_from (lift A) (flat b) (flat x0) mx tol atol liftM fuel
    = match cpcg_solve_from A b x0 mx tol atol M fuel with Done s => Done (fl_cp s) | Fail => Fail | Fuel => Fuel end.
  Proof. unfold pcg_solve_from. rewrite fl_cp_init. apply fl_cp_while; [apply cp_ok_init|simpl; lia]. Qed.
End Pcg.
