(** C74: the generated test problems are consistent. *)
From Coq Require Import List Arith ZArith Bool Lia Reals Lra Permutation.
From Verif Require Import Loop Scalar Vec RVec LopSpec LopOpSpec LopModel BasisSpec FourierModel BasisModel SortedL1Model OptModel OptSpec ProblemModel ProblemSpec ProblemProofs ProblemProofs2 FourierProps.
Import ListNotations.

(** prob001: a sine plus a jump in Fourier + Heaviside, the known x has at most 7 nonzeros *)
Theorem C74_prob001 n : 0 < n -> exists P x, prob001 n = Some P /\ consistent P x /\ (4 < n -> at_most_nonzero 7 x) /\
  forall i, i < n -> nth i (p_b P) s0 = (4 * sin (4 * PI * (INR (i + 1) / INR n)) + (sign (INR (i + 1) / INR n - 3 / 10) - sign (72 / 100 - INR (i + 1) / INR n)), 0)%R.
Proof. exact (prob001_ok n). Qed.
Print Assumptions C74_prob001.

(** prob002: blocks in an orthogonal wavelet basis *)
Theorem C74_prob002 dwt1 idwt1 ml n b : orthogonal_filter_bank dwt1 idwt1 -> 16 < n -> 5 <= ml -> length b = n ->
  exists P x, prob002 dwt1 idwt1 ml n b = Some P /\ consistent P x /\ p_b P = b.
Proof. exact (prob002_ok dwt1 idwt1 ml n b). Qed.
Print Assumptions C74_prob002.
Example C74_prob002_ex : exists P x, prob002 haar_dwt haar_idwt 5 32 (repeat 1%R 32) = Some P /\ consistent P x /\ p_b P = repeat 1%R 32.
Proof. apply C74_prob002; [exact C13_haar|lia|lia|apply repeat_length]. Qed.

(** prob003 - prob005: c cosines (or exponentials) and k spikes; the solution
    stacks the spikes and the coefficients scaled by sqrt(n / 2) *)
Theorem C74_prob003 c k n ci cv si sv : 0 < n -> draw n c ci cv -> draw n k si sv ->
  exists P x, prob003 c k n ci cv si sv = Some P /\ consistent P x /\ spikes_and_coefficients (K:=Rs) n si sv ci cv (fun a => (a * sqrt (INR n / 2))%R) x.
Proof. exact (prob003_ok c k n ci cv si sv). Qed.
Print Assumptions C74_prob003.
Theorem C74_prob004 c k n ci cv si sv : 0 < n -> draw n c ci cv -> draw n k si sv ->
  exists P x, prob004 c k n ci cv si sv = Some P /\ consistent P x /\ spikes_and_coefficients (K:=Cs) n si sv ci cv (fun a => smul a (ofR (sqrt (INR n / 2)))) x.
Proof. exact (prob004_ok c k n ci cv si sv). Qed.
Print Assumptions C74_prob004.
Theorem C74_prob005 c k m n ci cv si sv G : 0 < n -> draw n c ci cv -> draw n k si sv -> wf_mat (K:=Rs) m n G ->
  exists P x, prob005 c k m n ci cv si sv G = Some P /\ consistent P x /\ spikes_and_coefficients (K:=Rs) n si sv ci cv (fun a => (a * sqrt (INR n / 2))%R) x /\ p_y P <> None /\ om (p_A P) = m.
Proof. exact (prob005_ok c k m n ci cv si sv G). Qed.
Print Assumptions C74_prob005.
Example C74_draw_ex : draw 8 2 [1; 4] [1%R; (-2)%R] /\ wf_mat (K:=Rs) 2 8 [repeat 1%R 8; repeat 0%R 8].
Proof.
  split.
  - split; [repeat constructor; simpl; intuition discriminate|]. split; [simpl; intros i [<-|[<-|[]]]; lia|now split].
  - split; [reflexivity|]. intros r [<-|[<-|[]]]; apply repeat_length.
Qed.

(** prob006: every sample of the piecewise polynomial lies in exactly the piece
    its index falls into, and is that piece's cubic there *)
Theorem C74_round r : (Rabs (IZR (py_round r) - r) <= 1 / 2)%R /\ (Rabs (IZR (py_round r) - r) = (1 / 2)%R -> Z.even (py_round r) = true).
Proof. exact (py_round_near r). Qed.
Print Assumptions C74_round.
Theorem C74_breaks n u : (forall x, In x u -> (0 <= x <= 1)%R) ->
  (forall i j, i <= j -> j < length (breaks n u) -> nth i (breaks n u) 0 <= nth j (breaks n u) 0) /\
  length (breaks n u) = length u + 2 /\ nth 0 (breaks n u) 0 = 0 /\ nth (length u + 1) (breaks n u) 0 = n /\
  exists l, Permutation l (0%R :: u ++ [1%R]) /\ ascending l /\
    forall i, i < length (breaks n u) -> (Rabs (INR (nth i (breaks n u) 0%nat) - nth i l 0 * INR n) <= 1 / 2)%R.
Proof. exact (breaks_ok' n u). Qed.
Print Assumptions C74_breaks.
Theorem C74_piecewise n u cs : (forall x, In x u -> (0 <= x <= 1)%R) -> length cs = length u + 1 ->
  length (piecewise_polynomial n u cs) = n /\
  forall i, i < n -> exists j, j < length cs /\ nth j (breaks n u) 0 <= i < nth (S j) (breaks n u) 0 /\
    let cnt := nth (S j) (breaks n u) 0 - nth j (breaks n u) 0 in let q := i - nth j (breaks n u) 0 in
    let t := if cnt =? 1 then (-3)%R else (-3 + 6 * INR q / INR (cnt - 1))%R in let c := nth j cs [] in
    nth i (piecewise_polynomial n u cs) 0%R = (nth 0 c 0 + nth 1 c 0 * t + nth 2 c 0 * t ^ 2 + nth 3 c 0 * t ^ 3)%R.
Proof.
  intros Hu Hc. destruct (poly_ok n u cs Hu Hc) as [L H]. split; [exact L|]. intros i Hi. destruct (H i Hi) as [j [Hj [Hij E]]].
  exists j. split; [exact Hj|]. split; [exact Hij|]. cbv zeta. rewrite E. unfold cubic, linspace3.
  set (cnt := nth (S j) (breaks n u) 0 - nth j (breaks n u) 0). assert (1 <= cnt) by (unfold cnt; lia).
  destruct (Nat.leb_spec cnt 1); destruct (Nat.eqb_spec cnt 1); try lia; [reflexivity|].
  set (q := i - nth j (breaks n u) 0). replace (6 * INR q / INR (cnt - 1))%R with (INR q * (6 / INR (cnt - 1)))%R by (unfold Rdiv; ring). reflexivity.
Qed.
Print Assumptions C74_piecewise.
Theorem C74_prob006 dwt1 idwt1 ml m n level u cs G : orthogonal_filter_bank dwt1 idwt1 -> 1 <= level <= Nat.log2_up n -> level <= ml ->
  (forall x, In x u -> (0 <= x <= 1)%R) -> length cs = length u + 1 -> wf_mat (K:=Rs) m n G ->
  exists P x, prob006 dwt1 idwt1 ml m n level u cs G = Some P /\ consistent P x /\ p_y P = Some (piecewise_polynomial n u cs) /\ om (p_A P) = m.
Proof. exact (prob006_ok dwt1 idwt1 ml m n level u cs G). Qed.
Print Assumptions C74_prob006.
Example C74_prob006_ex : exists P x, prob006 haar_dwt haar_idwt 3 2 8 2 [(1/2)%R] [[1%R;0%R;0%R;0%R];[0%R;1%R;0%R;0%R]] [repeat 1%R 8; repeat 0%R 8] = Some P /\ consistent P x /\
  p_y P = Some (piecewise_polynomial 8 [(1/2)%R] [[1%R;0%R;0%R;0%R];[0%R;1%R;0%R;0%R]]) /\ om (p_A P) = 2.
Proof.
  apply C74_prob006; [exact C13_haar| | |intros x [<-|[]]; lra|reflexivity|exact (proj2 C74_draw_ex)]; [|lia].
  split; [lia|]. vm_compute. lia.
Qed.

(** prob007, prob008, prob011: spikes at the drawn positions *)
Theorem C74_prob007 k0 m0 n0 scale g si G : draw (scaled scale n0) (scaled scale k0) si g -> wf_mat (K:=Rs) (scaled scale m0) (scaled scale n0) G ->
  exists P x, prob007 k0 m0 n0 scale g si G = Some P /\ consistent P x /\ supported_on si x /\ p_y P = Some x /\
    (forall p, p < length si -> nth p g 0%R <> 0%R -> nth (nth p si 0) x 0%R = 1%R \/ nth (nth p si 0) x 0%R = (-1)%R).
Proof. exact (prob007_ok k0 m0 n0 scale g si G). Qed.
Print Assumptions C74_prob007.
Theorem C74_prob008 k0 m0 n0 scale rg ig si G : draw (scaled scale n0) (scaled scale k0) si rg -> length ig = length rg -> wf_mat (K:=Rs) (scaled scale m0) (scaled scale n0) G ->
  exists P x, prob008 k0 m0 n0 scale rg ig si G = Some P /\ consistent P x /\ supported_on si x /\
    (forall p, p < length si -> nth p rg 0%R <> 0%R -> nth p ig 0%R <> 0%R ->
       exists a b, nth (nth p si 0) x (@s0 Cs) = (a, b) /\ (a = 1%R \/ a = (-1)%R) /\ (b = 1%R \/ b = (-1)%R)).
Proof. exact (prob008_ok k0 m0 n0 scale rg ig si G). Qed.
Print Assumptions C74_prob008.
Theorem C74_prob011 k0 m0 n0 scale g si G : draw (scaled scale n0) (scaled scale k0) si g -> wf_mat (K:=Rs) (scaled scale m0) (scaled scale n0) G ->
  exists P x, prob011 k0 m0 n0 scale g si G = Some P /\ consistent P x /\ supported_on si x /\
    (forall p, p < length si -> nth (nth p si 0) x 0%R = nth p g 0%R).
Proof. exact (prob011_ok k0 m0 n0 scale g si G). Qed.
Print Assumptions C74_prob011.
(** the scaled sizes: at least 1, the requested size for scale 1, and ordered as the requested ones *)
Theorem C74_scaled scale : (forall k, 1 <= scaled scale k) /\ (forall k, 1 <= k -> scaled 1 k = k) /\
  (forall k, (1 <= scale * INR k)%R -> (Rabs (INR (scaled scale k) - scale * INR k) <= 1 / 2)%R) /\
  ((0 <= scale)%R -> forall k n, k <= n -> scaled scale k <= scaled scale n).
Proof. split; [intros; unfold scaled; lia|]. split; [exact scaled_one|]. split; [exact (scaled_near scale)|]. intros H k n. exact (scaled_mono scale k n H). Qed.
Print Assumptions C74_scaled.
Example C74_prob007_ex : draw (scaled 1 8) (scaled 1 2) [1; 4] [1%R; (-2)%R] /\ wf_mat (K:=Rs) (scaled 1 2) (scaled 1 8) [repeat 1%R 8; repeat 0%R 8].
Proof. rewrite !(proj1 (proj2 (C74_scaled 1))) by lia. exact C74_draw_ex. Qed.

(** prob009, prob010: blocks in the plain and the normalised Heaviside basis *)
Theorem C74_prob009 n b : length b = n -> exists x, consistent (prob009 n b) x /\ p_b (prob009 n b) = b.
Proof. exact (prob_heaviside_ok false n b). Qed.
Print Assumptions C74_prob009.
Theorem C74_prob010 n b : length b = n -> exists x, consistent (prob010 n b) x /\ p_b (prob010 n b) = b.
Proof. exact (prob_heaviside_ok true n b). Qed.
Print Assumptions C74_prob010.
(** the converse of the flag in [consistent]: the problems with one trivial operator are marked as such *)
Theorem C74_single :
  (forall n P, prob001 n = Some P -> p_both P = false) /\
  (forall d i ml n b P, prob002 d i ml n b = Some P -> p_both P = false) /\
  (forall c k n ci cv si sv P, prob003 c k n ci cv si sv = Some P -> p_both P = false) /\
  (forall c k n ci cv si sv P, prob004 c k n ci cv si sv = Some P -> p_both P = false) /\
  (forall k m n s g si G P, prob007 k m n s g si G = Some P -> p_both P = false) /\
  (forall k m n s rg ig si G P, prob008 k m n s rg ig si G = Some P -> p_both P = false) /\
  (forall n b, p_both (prob009 n b) = false) /\ (forall n b, p_both (prob010 n b) = false) /\
  (forall k m n s g si G P, prob011 k m n s g si G = Some P -> p_both P = false).
Proof.
  repeat split; intros; repeat match goal with
  | E : Some ?a = Some ?b |- _ => injection E as <-; reflexivity
  | E : None = Some _ |- _ => discriminate E
  | E : ?f = Some _ |- _ => match f with context[match ?x with _ => _ end] => destruct x eqn:? end
  | E : ?f = Some _ |- _ => progress (unfold prob001, prob002, prob003, prob004, prob007, prob008, prob011 in E; cbv zeta in E)
  end.
Qed.
Print Assumptions C74_single.
(** the Gaussian sensing operators are marked as real, also that of the complex problem prob008: its data
    are complex, and a solver that chooses the type of its start vector by the operator alone fails on it *)
Theorem C74_real_sensing :
  (forall c k m n ci cv si sv G P, prob005 c k m n ci cv si sv G = Some P -> real (p_Phi P) = true) /\
  (forall d i ml m n level u cs G P, prob006 d i ml m n level u cs G = Some P -> real (p_Phi P) = true) /\
  (forall k m n s g si G P, prob007 k m n s g si G = Some P -> real (p_A P) = true) /\
  (forall k m n s rg ig si G P, prob008 k m n s rg ig si G = Some P -> real (p_A P) = true) /\
  (forall k m n s g si G P, prob011 k m n s g si G = Some P -> real (p_A P) = true).
Proof.
  repeat split; intros; repeat match goal with
  | E : Some ?a = Some ?b |- _ => injection E as <-; reflexivity
  | E : None = Some _ |- _ => discriminate E
  | E : ?f = Some _ |- _ => match f with context[match ?x with _ => _ end] => destruct x eqn:? end
  | E : ?f = Some _ |- _ => progress (unfold prob005, prob006, prob007, prob008, prob011 in E; cbv zeta in E)
  end.
Qed.
Print Assumptions C74_real_sensing.
