(** What a table of phase transition experiments is, in terms of the numbers
    it contains. *)
From Coq Require Import List Arith ZArith QArith.
From Verif Require Import PhaseModel.
Import ListNotations.
Open Scope nat_scope.

(** The rational number of a natural number. *)
Definition qn (a : nat) : Q := inject_Z (Z.of_nat a).

(** K is rho M rounded up. *)
Definition rounds_up (K : nat) (rho : Q) (M : nat) : Prop :=
  (qn K - 1 < rho * qn M)%Q /\ (rho * qn M <= qn K)%Q.

(** The step of the measurement counts for a dictionary of N atoms. *)
Definition step_M (N : nat) : nat := if Nat.leb N 256 then 16 else 32.

(** The number of sparsity ratios. *)
Definition levels (N : nat) : nat := Nat.min 32 (N / 4).

(** M is an admissible number of measurements: a positive multiple of the
    step up to half the number of atoms. *)
Definition admissible_M (N M : nat) : Prop :=
  exists j, 1 <= j /\ M = j * step_M N /\ 2 * M <= N.

(** rho is one of the sparsity ratios j / (2 levels), up to one half. *)
Definition admissible_rho (N : nat) (rho : Q) : Prop :=
  exists j, 1 <= j <= levels N /\ (rho == qn j / qn (2 * levels N))%Q.

(** eta is one of the undersampling ratios. *)
Definition admissible_eta (N : nat) (eta : Q) : Prop :=
  exists M, admissible_M N M /\ (eta == qn M / qn N)%Q.

(** Lexicographic order: first by number of measurements, then by sparsity. *)
Definition conf_lt (a b : pt_config) : Prop :=
  pt_M a < pt_M b \/ (pt_M a = pt_M b /\ pt_K a < pt_K b).

(** A power of two that is at least 32. *)
Definition admissible_N (N : nat) : Prop := exists p, 5 <= p /\ N = 2 ^ p.
