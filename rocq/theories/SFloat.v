(** What is assumed of a floating-point arithmetic, and IEEE double precision without overflow as an instance. *)
From Coq Require Import Reals ZArith Lra Lia Psatz.
From Flocq Require Import Core Plus_error Relative.
From Verif Require Import Num MTrees STrees MFloat.
Open Scope R_scope.

(** [x] is a floating-point number *)
Definition is_float (A : fp) (x : R) : Prop := rnd A x = x.

(** Rounding is monotone and symmetric, leaves floating-point numbers alone, 0 and 1 are floating-point numbers, and so is
    the double of a floating-point number (no overflow); the computed difference of different numbers is not 0 (gradual
    underflow); exp is monotone, is nonnegative and exp 0 = 1; powers of
    nonnegative numbers are nonnegative, and x ** 0 = 1. *)
Definition monotone_fp (A : fp) : Prop :=
  (forall x y, x <= y -> rnd A x <= rnd A y) /\
  (forall x, rnd A (- x) = - rnd A x) /\
  (forall x, is_float A (rnd A x)) /\
  is_float A 1 /\
  (forall x, is_float A x -> is_float A (2 * x)) /\
  (forall x y, is_float A x -> is_float A y -> x <> y -> rnd A (x - y) <> 0) /\
  (forall x, is_float A (f_exp A x)) /\
  (forall x y, x <= y -> f_exp A x <= f_exp A y) /\ (forall x, 0 <= f_exp A x) /\ f_exp A 0 = 1 /\
  (forall x k, 0 <= x -> 0 <= f_powi A x k) /\ (forall x, f_powi A x 0 = 1).

(** The up and down moves of a binomial tree and its weight of the up move in rounded arithmetic, for a step of length [dt]. *)
Definition float_moves (A : fp) (k : bi_model) (b sigma dt : R) : R * R :=
  match k with
  | CRR => let u := f_exp A (rnd A (sigma * f_sqrt A dt)) in (u, rnd A (rnd A 1 / u))
  | JR => let m := rnd A (rnd A (b - rnd A (f_powi A sigma 2 / rnd A 2)) * dt) in let s := rnd A (sigma * f_sqrt A dt) in
          (f_exp A (rnd A (m + s)), f_exp A (rnd A (m - s)))
  | TIAN => let M := f_exp A (rnd A (b * dt)) in let V := f_exp A (rnd A (f_powi A sigma 2 * dt)) in
            let q := f_sqrt A (rnd A (rnd A (rnd A (V * V) + rnd A (rnd A 2 * V)) - rnd A 3)) in let c := rnd A (rnd A (M * V) / rnd A 2) in
            (rnd A (c * rnd A (rnd A (V + rnd A 1) + q)), rnd A (c * rnd A (rnd A (V + rnd A 1) - q)))
  end.
Definition float_prob (A : fp) (k : bi_model) (b sigma dt : R) : R :=
  let '(u, d) := float_moves A k b sigma dt in
  match k with JR => rnd A (rnd A 1 / rnd A 2) | _ => rnd A (rnd A (f_exp A (rnd A (b * dt)) - d) / rnd A (u - d)) end.

(** The weights computed for n steps to maturity t are nonnegative, so are the moves, and computing them does not divide by zero. *)
Definition float_weights (A : fp) (c : tree_class) (t b sigma : R) (n : nat) : Prop :=
  let dt := rnd A (t / rnd A (IZR (Z.of_nat n))) in
  match c with
  | Bi k => let '(u, d) := float_moves A k b sigma dt in let p := float_prob A k b sigma dt in
      (k <> JR -> rnd A (u - d) <> 0) /\ 0 <= d /\ 0 <= u /\ 0 <= p /\ 0 <= rnd A (rnd A 1 - p)
  | Tri => let h := f_sqrt A (rnd A (dt / rnd A 2)) in let m := f_exp A (rnd A (rnd A (b * dt) / rnd A 2)) in
      let x := f_exp A (rnd A (sigma * h)) in let y := f_exp A (rnd A (- sigma * h)) in
      let pu := f_powi A (rnd A (rnd A (m - y) / rnd A (x - y))) 2 in let pd := f_powi A (rnd A (rnd A (x - m) / rnd A (x - y))) 2 in
      rnd A (x - y) <> 0 /\ 0 <= pu /\ 0 <= rnd A (rnd A (rnd A 1 - pu) - pd) /\ 0 <= pd
  end.

(** Double precision without overflow (53 bits, smallest exponent -1074, ties to even), with correctly rounded library functions. *)
Definition rnd64 : R -> R := round radix2 (FLT_exp (-1074) 53) ZnearestE.
Definition binary64 : fp := mkFp rnd64
  (fun x => rnd64 (exp x)) (fun x => rnd64 (ln x)) (fun x => rnd64 (sqrt x)) (fun x => rnd64 (atan x)) (fun x => rnd64 (sin x)) (fun x => rnd64 (cos x))
  (rnd64 PI) (fun x k => rnd64 (x ^ k)) (fun x y => rnd64 (Rpower x y)).

#[local] Instance p53 : Prec_gt_0 53 := eq_refl.
Lemma rnd64_mono x y : x <= y -> rnd64 x <= rnd64 y.
Proof. apply round_le; [apply FLT_exp_valid; exact p53|apply valid_rnd_N]. Qed.
Lemma rnd64_opp x : rnd64 (- x) = - rnd64 x.
Proof. unfold rnd64. apply round_NE_opp. Qed.
Lemma rnd64_idem x : rnd64 (rnd64 x) = rnd64 x.
Proof. unfold rnd64. apply round_generic; [apply valid_rnd_N|]. apply generic_format_round; [apply FLT_exp_valid; exact p53|apply valid_rnd_N]. Qed.
Lemma rnd64_0 : rnd64 0 = 0.
Proof. apply round_0, valid_rnd_N. Qed.
Lemma rnd64_1 : rnd64 1 = 1.
Proof.
  unfold rnd64. apply round_generic; [apply valid_rnd_N|]. change 1 with (bpow radix2 0). apply generic_format_bpow. unfold FLT_exp. cbn. lia.
Qed.
Lemma rnd64_int z : (Z.abs z < 2 ^ 53)%Z -> rnd64 (IZR z) = IZR z.
Proof.
  intro H. unfold rnd64. apply round_generic; [apply valid_rnd_N|]. apply generic_format_FLT. exists (Float radix2 z 0); cbn; [unfold F2R; cbn; lra|exact H|lia].
Qed.
Lemma rnd64_double x : rnd64 x = x -> rnd64 (2 * x) = 2 * x.
Proof.
  intro H. assert (F : generic_format radix2 (FLT_exp (-1074) 53) x) by (rewrite <- H; apply generic_format_round; [apply FLT_exp_valid; exact p53|apply valid_rnd_N]).
  unfold rnd64. apply round_generic; [apply valid_rnd_N|]. apply generic_format_FLT. apply FLT_format_generic in F; [|exact p53]. destruct F as [[m e] E Hm He]. cbn in *.
  exists (Float radix2 m (e + 1)); cbn; [|exact Hm|lia]. rewrite E. unfold F2R. cbn. rewrite bpow_plus. cbn. ring.
Qed.

Lemma rnd64_format x : rnd64 x = x -> generic_format radix2 (FLT_exp (-1074) 53) x.
Proof. intros <-. apply generic_format_round; [apply FLT_exp_valid; exact p53|apply valid_rnd_N]. Qed.
Lemma rnd64_diff x y : rnd64 x = x -> rnd64 y = y -> x <> y -> rnd64 (x - y) <> 0.
Proof.
  intros Hx Hy H. apply rnd64_format in Hx, Hy. pose proof (FLT_exp_valid (-1074) 53) as V. pose proof (FLT_exp_monotone (-1074) 53) as M.
  unfold rnd64, Rminus. apply round_plus_neq_0; try exact _; [exact Hx|now apply generic_format_opp|]. intro E. apply H. lra.
Qed.

Lemma binary64_monotone : monotone_fp binary64.
Proof.
  unfold monotone_fp, is_float; cbn [rnd f_exp f_powi binary64]. split; [exact rnd64_mono|]. split; [exact rnd64_opp|]. split; [exact rnd64_idem|]. split; [exact rnd64_1|]. split; [exact rnd64_double|]. split; [exact rnd64_diff|]. split; [intro x; apply rnd64_idem|].
  split; [intros x y Hxy; apply rnd64_mono; destruct (Req_dec x y) as [->|]; [lra|left; apply exp_increasing; lra]|].
  split; [intro x; rewrite <- rnd64_0; apply rnd64_mono, Rlt_le, exp_pos|]. split; [rewrite exp_0; exact rnd64_1|].
  split; [intros x k Hx; rewrite <- rnd64_0; apply rnd64_mono, pow_le, Hx|]. intro x. apply rnd64_1.
Qed.

(** Each operation, and each library function, has relative error at most [u], plus an absolute error [eta] for underflow;
    rounding is symmetric and leaves floating-point numbers alone; 1 and 2 are such numbers. *)
Definition accurate_fp (A : fp) (u eta : R) : Prop :=
  0 <= u <= / 1000 /\ 0 <= eta <= / 1000 /\
  (forall x, rnd A (- x) = - rnd A x) /\ (forall x, is_float A (rnd A x)) /\ is_float A 1 /\ is_float A 2 /\
  (forall x, Rabs (rnd A x - x) <= u * Rabs x + eta) /\
  (forall x, Rabs (f_exp A x - exp x) <= u * exp x + eta) /\
  (forall x, 0 < x -> Rabs (f_log A x - ln x) <= u * Rabs (ln x) + eta) /\
  (forall x, 0 <= x -> Rabs (f_sqrt A x - sqrt x) <= u * sqrt x + eta) /\
  (forall x, Rabs (f_atan A x - atan x) <= u * Rabs (atan x) + eta) /\
  (forall x k, Rabs (f_powi A x k - x ^ k) <= u * Rabs (x ^ k) + eta).

Lemma rnd64_error x : Rabs (rnd64 x - x) <= / 2 ^ 53 * Rabs x + / 2 ^ 1075.
Proof.
  assert (H : forall n, (0 < n)%Z -> / 2 * bpow radix2 (- n) = / 2 ^ (Datatypes.S (Z.to_nat n))).
  { intros n Hp. rewrite bpow_opp, <- tech_pow_Rmult, Rinv_mult. f_equal. rewrite bpow_powerRZ. destruct n as [|n|n]; [lia| |lia]. reflexivity. }
  destruct (error_N_FLT radix2 (-1074) 53 eq_refl (fun z => negb (Z.even z)) x) as (e & n & He & Hn & _ & E).
  unfold rnd64. rewrite E. replace (x * (1 + e) + n - x) with (e * x + n) by ring.
  eapply Rle_trans; [apply Rabs_triang|]. apply Rplus_le_compat.
  - rewrite Rabs_mult. apply Rmult_le_compat_r; [apply Rabs_pos|]. eapply Rle_trans; [exact He|]. right. exact (H 52%Z eq_refl).
  - eapply Rle_trans; [exact Hn|]. right. exact (H 1074%Z eq_refl).
Qed.

Lemma rnd64_2 : rnd64 2 = 2.
Proof. pose proof (rnd64_double 1 rnd64_1) as H. now rewrite Rmult_1_r in H. Qed.
Lemma binary64_accurate : accurate_fp binary64 (/ 2 ^ 53) (/ 2 ^ 1075).
Proof.
  assert (P : forall n, (10 <= n)%nat -> 0 <= / 2 ^ n <= / 1000).
  { intros n Hn. assert (1000 <= 2 ^ n) by (apply Rle_trans with (2 ^ 10); [cbn; lra|apply Rle_pow; [lra|exact Hn]]). split; [apply Rlt_le, Rinv_0_lt_compat; lra|apply Rinv_le_contravar; lra]. }
  unfold accurate_fp, is_float, binary64; cbn [rnd f_exp f_log f_sqrt f_atan f_powi]. split; [apply P; lia|]. split; [apply P; lia|]. split; [exact rnd64_opp|]. split; [exact rnd64_idem|]. split; [exact rnd64_1|]. split; [exact rnd64_2|]. split; [exact rnd64_error|].
  split; [intro x; rewrite <- (Rabs_pos_eq (exp x)) at 3 by apply Rlt_le, exp_pos; apply rnd64_error|]. split; [intros; apply rnd64_error|].
  split; [intros x Hx; rewrite <- (Rabs_pos_eq (sqrt x)) at 3 by apply sqrt_pos; apply rnd64_error|]. split; intros; apply rnd64_error.
Qed.

(** Arithmetic with [p] bits of precision and unbounded exponents, with correctly rounded library functions. *)
Definition rndp (p : positive) : R -> R := round radix2 (FLX_exp (Zpos p)) ZnearestE.
Definition precision (p : positive) : fp := mkFp (rndp p)
  (fun x => rndp p (exp x)) (fun x => rndp p (ln x)) (fun x => rndp p (sqrt x)) (fun x => rndp p (atan x)) (fun x => rndp p (sin x)) (fun x => rndp p (cos x))
  (rndp p PI) (fun x k => rndp p (x ^ k)) (fun x y => rndp p (Rpower x y)).

#[local] Instance p_pos p : Prec_gt_0 (Zpos p) := eq_refl.
Lemma rndp_error p x : Rabs (rndp p x - x) <= / 2 ^ Pos.to_nat p * Rabs x + 0.
Proof.
  rewrite Rplus_0_r. eapply Rle_trans; [apply relative_error_N_FLX; exact (p_pos p)|]. apply Rmult_le_compat_r; [apply Rabs_pos|]. right.
  replace (- Z.pos p + 1)%Z with (- (Z.pos p - 1))%Z by lia. rewrite bpow_opp, <- Rinv_mult. f_equal. change 2 with (bpow radix2 1) at 1. rewrite <- bpow_plus. replace (1 + (Z.pos p - 1))%Z with (Z.pos p) by lia. rewrite bpow_powerRZ. reflexivity.
Qed.
Lemma rndp_bpow p e : rndp p (bpow radix2 e) = bpow radix2 e.
Proof. unfold rndp. apply round_generic; [apply valid_rnd_N|]. apply generic_format_bpow. unfold FLX_exp. lia. Qed.
Lemma precision_accurate p : (10 <= p)%positive -> accurate_fp (precision p) (/ 2 ^ Pos.to_nat p) 0.
Proof.
  intro Hp. assert (H10 : (10 <= Pos.to_nat p)%nat) by lia.
  assert (P : 0 <= / 2 ^ Pos.to_nat p <= / 1000). { assert (1000 <= 2 ^ Pos.to_nat p) by (apply Rle_trans with (2 ^ 10); [cbn; lra|apply Rle_pow; [lra|exact H10]]). split; [apply Rlt_le, Rinv_0_lt_compat; lra|apply Rinv_le_contravar; lra]. }
  unfold accurate_fp, is_float, precision; cbn [rnd f_exp f_log f_sqrt f_atan f_powi]. split; [exact P|]. split; [lra|]. split; [intro x; unfold rndp; apply round_NE_opp|].
  split; [intro x; unfold rndp; apply round_generic; [apply valid_rnd_N|]; apply generic_format_round; [apply FLX_exp_valid; exact (p_pos p)|apply valid_rnd_N]|].
  split; [exact (rndp_bpow p 0)|]. split; [exact (rndp_bpow p 1)|]. split; [apply rndp_error|].
  split; [intro x; rewrite <- (Rabs_pos_eq (exp x)) at 3 by apply Rlt_le, exp_pos; apply rndp_error|]. split; [intros; apply rndp_error|].
  split; [intros x Hx; rewrite <- (Rabs_pos_eq (sqrt x)) at 3 by apply sqrt_pos; apply rndp_error|]. split; intros; apply rndp_error.
Qed.
