(** The grid of phase transition experiments
    (src/cr/sparse/_src/pursuit/phasetransition.py).

    [configuration] computes with single precision floats, but every number
    it forms is a small integer divided by a power of two, so the floats are
    exact and the model computes with rational numbers. *)
From Coq Require Import List Arith ZArith QArith Qround Bool.
Import ListNotations.
Open Scope nat_scope.

(** Model of pursuit/defs.py:103-107 (PTConfig). *)
Record pt_config := mkPT { pt_K : nat; pt_M : nat; pt_eta : Q; pt_rho : Q }.

(** The Python dictionary [reverse_map] of phasetransition.py:52: keys are
    pairs (rho, eta) of numbers, compared by value. *)
Definition pt_dict := list ((Q * Q) * (nat * nat)).

(** Comparison of two dictionary keys (pairs of floats compare component by
    component), phasetransition.py:59. *)
Definition key_eqb (a b : Q * Q) : bool :=
  Qeq_bool (fst a) (fst b) && Qeq_bool (snd a) (snd b).

(** Models the dictionary lookup [reverse_map[key]] used by callers of
    phasetransition.py:26-69. *)
Fixpoint dict_get (key : Q * Q) (d : pt_dict) : option (nat * nat) :=
  match d with
  | [] => None
  | (k, v) :: d' => if key_eqb key k then Some v else dict_get key d'
  end.

(** Models the dictionary store of phasetransition.py:59: replaces the value
    of a key that is present, and otherwise adds the key at the end. *)
Fixpoint dict_set (key : Q * Q) (v : nat * nat) (d : pt_dict) : pt_dict :=
  match d with
  | [] => [(key, v)]
  | (k, w) :: d' =>
      if key_eqb key k then (k, v) :: d' else (k, w) :: dict_set key v d'
  end.

(** Model of pursuit/defs.py:109-115 (PTConfigurations). *)
Record pt_configs := mkPTC {
  pc_N : nat;
  pc_configurations : list pt_config;
  pc_Ms : list nat;
  pc_etas : list Q;
  pc_rhos : list Q;
  pc_map : pt_dict
}.

(** Model of crs.is_power_of_2 (cr.nimble, used in phasetransition.py:28):
    the function is outside the repository; it is modelled by its meaning. *)
Definition is_power_of_2 (n : nat) : bool := Nat.eqb (2 ^ Nat.log2 n) n.

(** Model of phasetransition.py:30-34. *)
Definition m_min (N : nat) : nat := if Nat.leb N 256 then 16 else 32.

(** Model of phasetransition.py:38. *)
Definition num_rhos (N : nat) : nat := Nat.min 32 (N / 4).

(** Model of phasetransition.py:42. *)
Definition num_etas (N : nat) : nat := N / (2 * m_min N).

(** Exact value of the quotient of two integers (phasetransition.py:40,46). *)
Definition qdiv (a b : nat) : Q :=
  (inject_Z (Z.of_nat a) / inject_Z (Z.of_nat b))%Q.

(** Model of phasetransition.py:40. *)
Definition pt_rhos (N : nat) : list Q :=
  map (fun k => ((1 # 2) * inject_Z (Z.of_nat k)
                 / inject_Z (Z.of_nat (num_rhos N)))%Q)
      (seq 1 (num_rhos N)).

(** Model of phasetransition.py:44. *)
Definition pt_Ms (N : nat) : list nat :=
  map (fun k => k * m_min N) (seq 1 (num_etas N)).

(** Model of phasetransition.py:46. *)
Definition pt_etas (N : nat) : list Q := map (fun M => qdiv M N) (pt_Ms N).

(** The three collections the double loop of phasetransition.py:50-64
    updates: [added], [configurations] and [reverse_map]. *)
Record pt_state := mkPS {
  ps_added : list (nat * nat);
  ps_confs : list pt_config;
  ps_map : pt_dict
}.

(** Membership test of phasetransition.py:60. *)
Definition pair_in (p : nat * nat) (l : list (nat * nat)) : bool :=
  existsb (fun q => Nat.eqb (fst p) (fst q) && Nat.eqb (snd p) (snd q)) l.

(** Model of the body of the inner loop, phasetransition.py:57-64. *)
Definition pt_step (M : nat) (eta : Q) (s : pt_state) (rho : Q) : pt_state :=
  let K := Z.to_nat (Qceiling (rho * inject_Z (Z.of_nat M))%Q) in
  let rm := dict_set (rho, eta) (K, M) (ps_map s) in
  if pair_in (K, M) (ps_added s) then
    mkPS (ps_added s) (ps_confs s) rm
  else
    mkPS ((K, M) :: ps_added s)
         (ps_confs s ++ [mkPT K M eta rho]) rm.

(** Model of the outer loop body, phasetransition.py:54-64. *)
Definition pt_row (rhos : list Q) (s : pt_state) (Me : nat * Q) : pt_state :=
  fold_left (pt_step (fst Me) (snd Me)) rhos s.

(** Model of configuration, phasetransition.py:26-69.  [None] stands for the
    failed assertion of line 28 (assertions are assumed to be enabled).  The
    print of line 49 is not modelled. *)
Definition configuration (N : nat) : option pt_configs :=
  if is_power_of_2 N && Nat.leb 32 N then
    let rhos := pt_rhos N in
    let Ms := pt_Ms N in
    let etas := pt_etas N in
    let s := fold_left (pt_row rhos) (combine Ms etas) (mkPS [] [] []) in
    Some (mkPTC N (ps_confs s) Ms etas rhos (ps_map s))
  else None.
