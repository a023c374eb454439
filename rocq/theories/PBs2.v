(** The Bjerksund-Stensland call is the value of a feasible exercise strategy, hence at most the American value (C80):
    the value of stopping at a flat boundary, extended beyond the boundary by reflection, is an exact martingale. *)
From Coq Require Import Reals ZArith QArith Qreals List Bool Lra Lia.
From Coquelicot Require Import Coquelicot.
From Verif Require Import Num Py MBase MVanilla MTrees MAmerican SMonte SHeston SSpread2 SAmer PTrees2 PGauss PCnd PCnd2 PBlack PGbs PVanilla SAmerican PBs PHeston PHeston2 PExpect PExpect2 PClt PMargrabe PMonte6 PTrees3 PTrees4 PConv.
Open Scope R_scope.

Lemma pow4_exp x : 0 <= x -> x ^ 4 <= 256 * exp x.
Proof.
  intro Hx. replace (exp x) with (exp (x / 4) ^ 4). 2:{ rewrite exp_pow. f_equal. cbn. field. }
  pose proof (exp_ineq1_le (x / 4)). replace (256 * exp (x / 4) ^ 4) with ((4 * exp (x / 4)) ^ 4) by ring. apply pow_incr. lra.
Qed.
Lemma young a e : 0 <= a -> 0 < e -> a <= e + a ^ 4 / e ^ 3.
Proof.
  intros Ha He. assert (H3 : 0 < e ^ 3) by now apply pow_lt. destruct (Rle_or_lt a e) as [H|H].
  - assert (0 <= a ^ 4 / e ^ 3) by (apply Rmult_le_pos; [now apply pow_le|apply Rlt_le, Rinv_0_lt_compat, H3]). lra.
  - assert (a <= a ^ 4 / e ^ 3); [|lra]. apply Rmult_le_reg_r with (e ^ 3); [exact H3|]. replace (a ^ 4 / e ^ 3 * e ^ 3) with (a * a ^ 3) by (field; lra).
    apply Rmult_le_compat_l; [exact Ha|]. apply pow_incr. lra.
Qed.

(** ** comparison of a Gaussian martingale with values on a grid *)
Section Core.
Variables r b s t l : R.
Hypothesis Hs : 0 < s.
Hypothesis Ht : 0 < t.
Let nu := b - s ^ 2 / 2.
Variable V : R -> R -> R.
Hypothesis Hmart : forall u v x, 0 <= u -> 0 < v -> is_mean (fun z => exp (- r * v) * V u (x + (nu * v + s * (sqrt v * z)))) (V (u + v) x).
Variables A p : R.
Hypothesis HA : 0 <= A.
Hypothesis Hp : 0 <= p.

Lemma core : exists C, 0 <= C /\ forall e m (Rk : nat -> R -> R -> Prop), 0 < e -> (0 < m)%nat ->
  let h := t / INR m in
  (forall k y v, INR k * h <= t -> l <= y -> Rk k y v -> V (INR k * h) y <= v + A * (y - l) * exp (p * (y - l))) ->
  (forall y v, y < l -> Rk 0%nat y v -> V 0 y <= v) ->
  (forall k y v, y < l -> Rk (S k) y v -> exists f c, (forall y', Rk k y' (f y')) /\ is_mean (fun z => exp (- r * h) * f (y + (nu * h + s * (sqrt h * z)))) c /\ c <= v) ->
  forall x v, x < l -> Rk m x v -> V t x <= v + exp (Rabs r * t) * (e + C / e ^ 3 / INR m).
Proof.
  set (w0 := 1 + 4 * p * sqrt t). pose proof (sqrt_lt_R0 t Ht) as Hst. assert (Hw0 : 1 <= w0) by (unfold w0; assert (0 <= p * sqrt t) by (apply Rmult_le_pos; lra); lra).
  destruct (mean_wt (w0 * s) ltac:(apply Rmult_le_pos; lra)) as (M & HM0 & HM).
  set (J := 256 * exp (w0 * (Rabs nu * sqrt t))). assert (HJ : 0 < J) by (unfold J; pose proof (exp_pos (w0 * (Rabs nu * sqrt t))); lra).
  assert (ER : forall y, 0 <= y -> 1 <= exp (Rabs r * y)) by (intros y Hy; rewrite <- exp_0; apply exp_le; pose proof (Rabs_pos r); nra).
  assert (HA4 : 0 <= A ^ 4) by now apply pow_le.
  exists (A ^ 4 * J * M * t ^ 2). split.
  { apply Rmult_le_pos; [|apply pow2_ge_0]. apply Rmult_le_pos; [|lra]. apply Rmult_le_pos; lra. }
  intros e m Rk He Hm h Habove H0 Hstep x v Hxl HRm. assert (HI : 1 <= INR m) by (change 1 with (INR 1); apply le_INR; lia). assert (Hh : 0 < h) by (apply Rdiv_lt_0_compat; lra).
    assert (Hh1 : h <= t). { unfold h. apply Rmult_le_reg_r with (INR m); [lra|]. replace (t / INR m * INR m) with t by (field; lra). nra. }
    assert (He3 : 0 < e ^ 3) by now apply pow_lt. set (Q := A ^ 4 * J * M / e ^ 3).
    assert (HQ : 0 <= Q). { unfold Q. apply Rmult_le_pos; [apply Rmult_le_pos; [apply Rmult_le_pos; lra|lra]|]. apply Rlt_le, Rinv_0_lt_compat, He3. }
    set (D := fun d => (A * d * exp (p * d)) ^ 4 / e ^ 3).
    assert (HD : forall d, 0 <= d -> 0 <= D d). { intros d Hd. unfold D. apply Rmult_le_pos; [|apply Rlt_le, Rinv_0_lt_compat, He3]. apply pow_le. pose proof (exp_pos (p * d)). apply Rmult_le_pos; [apply Rmult_le_pos|]; lra. }
    assert (up : forall k y f, INR k * h <= t -> l <= y -> Rk k y f -> V (INR k * h) y <= f + e + D (y - l)).
    { intros k y f Hu Hy Hf. pose proof (Habove k y f Hu Hy Hf) as X. pose proof (exp_pos (p * (y - l))).
      assert (H2 : 0 <= A * (y - l) * exp (p * (y - l))) by (apply Rmult_le_pos; [apply Rmult_le_pos|]; lra).
      pose proof (young _ e H2 He). unfold D. lra. }
    assert (ind : forall k, INR k * h <= t -> forall y f, Rk k y f ->
      V (INR k * h) y <= f + exp (Rabs r * (INR k * h)) * (e + INR k * Q * h ^ 2) + (if Rle_dec l y then D (y - l) else 0)).
    { assert (Hh2 : 0 < h ^ 2) by now apply pow_lt.
      induction k as [|k IH]; intros Hk y f Hf.
      - pose proof (up 0%nat y f) as U0. cbn [INR] in *. rewrite Rmult_0_l in *. rewrite Rmult_0_r, exp_0, Rmult_0_l. destruct (Rle_dec l y) as [H|H].
        + specialize (U0 ltac:(lra) H Hf). lra.
        + pose proof (H0 y f ltac:(lra) Hf). lra.
      - pose proof (up (S k) y f) as U1. pose proof (pos_INR k) as HIk. rewrite S_INR in Hk, U1 |- *. assert (Hkh : 0 <= INR k * h) by (apply Rmult_le_pos; lra).
        assert (E0 : 0 <= e + (INR k + 1) * Q * h ^ 2). { assert (0 <= (INR k + 1) * Q * h ^ 2) by (apply Rmult_le_pos; [apply Rmult_le_pos|]; lra). lra. }
        pose proof (ER ((INR k + 1) * h) ltac:(lra)) as ERk.
        destruct (Rle_dec l y) as [H|H].
        + specialize (U1 Hk H Hf).
          assert (e <= exp (Rabs r * ((INR k + 1) * h)) * (e + (INR k + 1) * Q * h ^ 2)). { assert (0 <= (INR k + 1) * Q * h ^ 2) by (apply Rmult_le_pos; [apply Rmult_le_pos|]; lra). nra. }
          lra.
        + destruct (Hstep k y f ltac:(lra) Hf) as (f' & c & Hf' & Hc & Hcv). rewrite Rplus_0_r.
          assert (G : V ((INR k + 1) * h) y <= c + exp (Rabs r * ((INR k + 1) * h)) * (e + (INR k + 1) * Q * h ^ 2)).
          2:{ lra. }
          replace ((INR k + 1) * h) with (INR k * h + h) at 1 by ring.
          set (E := exp (Rabs r * (INR k * h)) * (e + INR k * Q * h ^ 2)).
          assert (HE : 0 <= E). { unfold E. apply Rmult_le_pos; [apply Rlt_le, exp_pos|]. assert (0 <= INR k * Q * h ^ 2) by (apply Rmult_le_pos; [apply Rmult_le_pos|]; lra). lra. }
          set (eh := exp (Rabs r * h)). pose proof (ER h ltac:(lra)) as Heh. fold eh in Heh.
          assert (Dh : 0 < exp (- r * h) <= eh). { split; [apply exp_pos|]. apply exp_le. pose proof (Rle_abs (- r)) as Z. rewrite Rabs_Ropp in Z. nra. }
          assert (P := is_mean_lin _ _ _ _ 1 (eh * E) Hc mean_1). assert (P2 := is_mean_lin _ _ _ _ 1 (eh * (A ^ 4 * J / e ^ 3) * h ^ 2) P HM).
          apply Rle_trans with (1 * (1 * c + eh * E * 1) + eh * (A ^ 4 * J / e ^ 3) * h ^ 2 * M).
          * refine (is_mean_le _ _ _ _ _ (Hmart (INR k * h) h y Hkh Hh) P2). intro z. cbv beta.
            set (yz := nu * h + s * (sqrt h * z)).
            pose proof (IH ltac:(lra) (y + yz) (f' (y + yz)) (Hf' _)) as X. fold E in X.
            assert (T1 : (if Rle_dec l (y + yz) then D (y + yz - l) else 0) <= A ^ 4 * J / e ^ 3 * h ^ 2 * exp (w0 * s * Rabs z)).
            { pose proof (exp_pos (w0 * s * Rabs z)) as HX. assert (Hpos : 0 <= A ^ 4 * J / e ^ 3) by (apply Rmult_le_pos; [apply Rmult_le_pos; lra|apply Rlt_le, Rinv_0_lt_compat, He3]).
              destruct (Rle_dec l (y + yz)) as [Hy|Hy]; [|apply Rmult_le_pos; [apply Rmult_le_pos|]; lra].
              set (d := y + yz - l). assert (Hd0 : 0 <= d) by (unfold d; lra). set (w := Rabs nu * sqrt t + s * Rabs z).
              pose proof (Rabs_pos nu). pose proof (Rabs_pos z). assert (Hw : 0 <= w) by (unfold w; assert (0 <= Rabs nu * sqrt t) by (apply Rmult_le_pos; lra); assert (0 <= s * Rabs z) by (apply Rmult_le_pos; lra); lra).
              pose proof (sqrt_lt_R0 h Hh) as Hsh. assert (Shh : sqrt h * sqrt h = h) by (apply sqrt_sqrt; lra). assert (Sht : sqrt h <= sqrt t) by (apply sqrt_le_1_alt; lra).
              assert (Hd : d <= sqrt h * w).
              { unfold d. apply Rle_trans with yz; [lra|]. unfold yz, w. rewrite Rmult_plus_distr_l.
                apply Rplus_le_compat.
                - apply Rle_trans with (Rabs nu * h); [apply Rmult_le_compat_r; [lra|apply Rle_abs]|]. replace (Rabs nu * h) with (sqrt h * (Rabs nu * sqrt h)) by (transitivity (Rabs nu * (sqrt h * sqrt h)); [ring|now rewrite Shh]).
                  apply Rmult_le_compat_l; [lra|]. apply Rmult_le_compat_l; lra.
                - replace (sqrt h * (s * Rabs z)) with (s * (sqrt h * Rabs z)) by ring. apply Rmult_le_compat_l; [lra|]. apply Rmult_le_compat_l; [lra|apply Rle_abs]. }
              unfold D. replace ((A * d * exp (p * d)) ^ 4 / e ^ 3) with (A ^ 4 / e ^ 3 * (d ^ 4 * exp (p * d) ^ 4)) by (field; lra).
              replace (A ^ 4 * J / e ^ 3 * h ^ 2 * exp (w0 * s * Rabs z)) with (A ^ 4 / e ^ 3 * (h ^ 2 * (J * exp (w0 * s * Rabs z)))) by (field; lra).
              apply Rmult_le_compat_l; [apply Rmult_le_pos; [lra|apply Rlt_le, Rinv_0_lt_compat, He3]|].
              assert (d ^ 4 <= h ^ 2 * w ^ 4). { replace (h ^ 2 * w ^ 4) with ((sqrt h * w) ^ 4) by (transitivity ((sqrt h * sqrt h) ^ 2 * w ^ 4); [ring|now rewrite Shh]). apply pow_incr. lra. }
              assert (exp (p * d) ^ 4 <= exp (4 * p * sqrt t * w)).
              { rewrite exp_pow. apply exp_le. replace (INR 4 * (p * d)) with (4 * p * d) by (cbn; ring). replace (4 * p * sqrt t * w) with (4 * p * (sqrt t * w)) by ring. apply Rmult_le_compat_l; [lra|]. apply Rle_trans with (sqrt h * w); [exact Hd|]. apply Rmult_le_compat_r; lra. }
              apply Rle_trans with (h ^ 2 * w ^ 4 * exp (4 * p * sqrt t * w)); [apply Rmult_le_compat; [now apply pow_le|apply pow_le, Rlt_le, exp_pos|assumption|assumption]|].
              rewrite Rmult_assoc. apply Rmult_le_compat_l; [lra|]. apply Rle_trans with (256 * exp w * exp (4 * p * sqrt t * w)); [apply Rmult_le_compat_r; [apply Rlt_le, exp_pos|now apply pow4_exp]|].
              right. unfold J. rewrite !Rmult_assoc, <- !exp_plus. do 2 f_equal. unfold w0, w. ring. }
            assert (0 <= (if Rle_dec l (y + yz) then D (y + yz - l) else 0)) by (destruct (Rle_dec l (y + yz)); [apply HD; lra|lra]).
            set (DD := if Rle_dec l (y + yz) then _ else _) in *. set (RR := A ^ 4 * J / e ^ 3 * h ^ 2 * exp (w0 * s * Rabs z)) in *.
            replace (1 * (1 * (exp (- r * h) * f' (y + yz)) + eh * E * 1) + eh * (A ^ 4 * J / e ^ 3) * h ^ 2 * exp (w0 * s * Rabs z)) with (exp (- r * h) * f' (y + yz) + eh * (E + RR)) by (unfold RR; ring).
            assert (exp (- r * h) * V (INR k * h) (y + yz) <= exp (- r * h) * (f' (y + yz) + E + DD)) by (apply Rmult_le_compat_l; lra).
            assert (exp (- r * h) * (E + DD) <= eh * (E + RR)) by (apply Rmult_le_compat; lra). lra.
          * replace (eh * (A ^ 4 * J / e ^ 3) * h ^ 2 * M) with (eh * (Q * h ^ 2)) by (unfold Q; field; lra).
            assert (F : exp (Rabs r * ((INR k + 1) * h)) = eh * exp (Rabs r * (INR k * h))) by (unfold eh; rewrite <- exp_plus; f_equal; ring). rewrite F. unfold E.
            pose proof (ER (INR k * h) Hkh) as E1. set (ek := exp (Rabs r * (INR k * h))) in *. assert (0 <= Q * h ^ 2) by (apply Rmult_le_pos; lra). set (q := Q * h ^ 2) in *.
            replace (INR k * Q * h ^ 2) with (INR k * q) by (unfold q; ring). replace ((INR k + 1) * Q * h ^ 2) with (INR k * q + q) by (unfold q; ring).
            assert (eh * q <= eh * (ek * q)) by (apply Rmult_le_compat_l; [lra|nra]). lra. }
    assert (Et : INR m * h = t) by (unfold h; field; lra).
    pose proof (ind m ltac:(lra) x v HRm) as X. rewrite Et in X. destruct (Rle_dec l x); [lra|].
    replace (INR m * Q * h ^ 2) with (A ^ 4 * J * M * t ^ 2 / e ^ 3 / INR m) in X by (unfold Q; rewrite <- Et; field; lra). lra.
Qed.
End Core.

(** ** a martingale that is the exercise value on the boundary is at most the American value below it *)
Section Flat.
Variables r b s t K l : R.
Hypothesis Hs : 0 < s.
Hypothesis Ht : 0 < t.
Let nu := b - s ^ 2 / 2.
Variable V : R -> R -> R.
Hypothesis Hmart : forall u v x, 0 <= u -> 0 < v -> is_mean (fun z => exp (- r * v) * V u (x + (nu * v + s * (sqrt v * z)))) (V (u + v) x).
Variables L p : R.
Hypothesis HL : 0 <= L.
Hypothesis Hp : 0 <= p.
Hypothesis Hlip : forall x d, 0 <= d -> Rabs (V 0 (x + d) - V 0 x) <= L * d * exp (p * (Rabs x + d)).
Hypothesis Hbd : forall u, 0 <= u -> V u l = exp l - K.

Lemma disc_bound u : 0 <= u <= t -> 0 < exp (- r * u) <= exp (Rabs r * t).
Proof. intro Hu. split; [apply exp_pos|]. apply exp_le. pose proof (Rle_abs (- r)) as H. rewrite Rabs_Ropp in H. pose proof (Rabs_pos r). nra. Qed.
Lemma beyond : exists A, 0 <= A /\ forall u d, 0 <= u <= t -> 0 <= d -> Rabs (V u (l + d) - (exp l - K)) <= A * d * exp (p * d).
Proof.
  pose proof (sqrt_pos t) as Hst. assert (Hq : 0 <= p * (s * sqrt t)) by (apply Rmult_le_pos; [exact Hp|]; apply Rmult_le_pos; lra).
  destruct (mean_wt _ Hq) as (M & HM0 & HM).
  set (C := exp (Rabs r * t) * (L * exp (p * (Rabs l + Rabs nu * t)))). assert (HE : 1 <= exp (Rabs r * t)) by (rewrite <- exp_0; apply exp_le; pose proof (Rabs_pos r); nra).
  assert (HE2 : 0 < exp (p * (Rabs l + Rabs nu * t))) by apply exp_pos. assert (HC0 : 0 <= L * exp (p * (Rabs l + Rabs nu * t))) by (apply Rmult_le_pos; lra).
  assert (HC : 0 <= C) by (apply Rmult_le_pos; lra). exists (C * (M + 1)). split; [apply Rmult_le_pos; lra|]. intros u d Hu Hd. pose proof (exp_pos (p * d)) as Hpd.
  assert (X : Rabs (V u (l + d) - V u l) <= C * d * exp (p * d) * (M + 1)).
  { assert (HX0 : 0 <= C * d * exp (p * d)) by (apply Rmult_le_pos; [apply Rmult_le_pos|]; lra).
    destruct (Rle_lt_or_eq_dec 0 u (proj1 Hu)) as [Hu0|<-].
    - assert (P := is_mean_lin _ _ _ _ 1 (-1) (Hmart 0 u (l + d) (Rle_refl 0) Hu0) (Hmart 0 u l (Rle_refl 0) Hu0)). rewrite Rplus_0_l in P.
      apply Rle_trans with (C * d * exp (p * d) * M); [|nra].
      replace (V u (l + d) - V u l) with (1 * V u (l + d) + -1 * V u l) by ring. refine (mean_abs _ _ _ _ _ P (mean_scal _ _ (C * d * exp (p * d)) HM)). intro z. cbv beta.
      set (y := nu * u + s * (sqrt u * z)). pose proof (Hlip (l + y) d Hd) as Y. replace (l + y + d) with (l + d + y) in Y by ring.
      destruct (disc_bound u Hu) as [D0 D1].
      assert (Ey : exp (p * (Rabs (l + y) + d)) <= exp (p * (Rabs l + Rabs nu * t)) * exp (p * (s * sqrt t) * Rabs z) * exp (p * d)).
      { rewrite <- !exp_plus. apply exp_le. replace (p * (Rabs l + Rabs nu * t) + p * (s * sqrt t) * Rabs z + p * d) with (p * (Rabs l + Rabs nu * t + s * sqrt t * Rabs z + d)) by ring.
        apply Rmult_le_compat_l; [exact Hp|]. apply Rplus_le_compat_r. unfold y. pose proof (Rabs_triang l (nu * u + s * (sqrt u * z))). pose proof (Rabs_triang (nu * u) (s * (sqrt u * z))).
        rewrite (Rabs_mult nu), (Rabs_mult s), (Rabs_mult (sqrt u)), (Rabs_pos_eq u), (Rabs_pos_eq s), (Rabs_pos_eq (sqrt u)) in H0 by (apply sqrt_pos || lra).
        assert (sqrt u <= sqrt t) by (apply sqrt_le_1_alt; lra). pose proof (Rabs_pos nu). pose proof (Rabs_pos z). pose proof (sqrt_pos u).
        assert (Rabs nu * u <= Rabs nu * t) by (apply Rmult_le_compat_l; lra). assert (s * (sqrt u * Rabs z) <= s * (sqrt t * Rabs z)) by (apply Rmult_le_compat_l; [lra|]; apply Rmult_le_compat_r; lra). lra. }
      replace (1 * (exp (- r * u) * V 0 (l + d + y)) + -1 * (exp (- r * u) * V 0 (l + y))) with (exp (- r * u) * (V 0 (l + d + y) - V 0 (l + y))) by ring. rewrite Rabs_mult, (Rabs_pos_eq (exp (- r * u))) by lra.
      apply Rle_trans with (exp (- r * u) * (L * d * exp (p * (Rabs (l + y) + d)))); [apply Rmult_le_compat_l; lra|].
      apply Rle_trans with (exp (Rabs r * t) * (L * d * (exp (p * (Rabs l + Rabs nu * t)) * exp (p * (s * sqrt t) * Rabs z) * exp (p * d)))).
      + pose proof (exp_pos (p * (Rabs (l + y) + d))). assert (0 <= L * d) by (apply Rmult_le_pos; lra). apply Rmult_le_compat; [lra| |lra|].
        * apply Rmult_le_pos; lra.
        * apply Rmult_le_compat_l; lra.
      + right. unfold C. ring.
    - pose proof (Hlip l d Hd) as Y. eapply Rle_trans; [exact Y|].
      assert (exp (p * (Rabs l + d)) <= exp (p * (Rabs l + Rabs nu * t)) * exp (p * d)).
      { rewrite <- exp_plus. apply exp_le. rewrite <- Rmult_plus_distr_l. apply Rmult_le_compat_l; [exact Hp|]. pose proof (Rabs_pos nu). assert (0 <= Rabs nu * t) by (apply Rmult_le_pos; lra). lra. }
      apply Rle_trans with (L * d * (exp (p * (Rabs l + Rabs nu * t)) * exp (p * d))); [apply Rmult_le_compat_l; [apply Rmult_le_pos; lra|assumption]|].
      apply Rle_trans with (C * d * exp (p * d)); [|nra]. unfold C. replace (exp (Rabs r * t) * (L * exp (p * (Rabs l + Rabs nu * t))) * d * exp (p * d)) with (exp (Rabs r * t) * (L * d * (exp (p * (Rabs l + Rabs nu * t)) * exp (p * d)))) by ring.
      assert (0 <= L * d * (exp (p * (Rabs l + Rabs nu * t)) * exp (p * d))) by (apply Rmult_le_pos; [apply Rmult_le_pos; lra|apply Rmult_le_pos; lra]). nra. }
  rewrite (Hbd u (proj1 Hu)) in X. replace (C * (M + 1) * d * exp (p * d)) with (C * d * exp (p * d) * (M + 1)) by ring. lra.
Qed.

Lemma small_lim E C g : 0 <= C -> 1 <= E -> 0 < g -> exists e N, 0 < e /\ forall m, (N <= m)%nat -> (0 < m)%nat -> E * (e + C / e ^ 3 / INR m) <= g / 2.
Proof.
  intros HC HE Hg. set (e := g / (4 * E)). assert (He : 0 < e) by (apply Rdiv_lt_0_compat; lra). assert (He3 : 0 < e ^ 3) by now apply pow_lt.
  set (Q := C / e ^ 3). assert (HQ : 0 <= Q) by (apply Rmult_le_pos; [exact HC|apply Rlt_le, Rinv_0_lt_compat, He3]).
  assert (Hm0 : 0 <= 4 * E * Q / g) by (apply Rmult_le_pos; [apply Rmult_le_pos; lra|apply Rlt_le, Rinv_0_lt_compat, Hg]).
  destruct (nfloor_ex _ Hm0) as (n & Hn). exists e, (S n). split; [exact He|]. intros m Hm Hm1. apply le_INR in Hm. rewrite S_INR in Hm. assert (HI : 0 < INR m) by (apply lt_0_INR; exact Hm1).
  assert (E * e = g / 4) by (unfold e; field; lra). fold Q.
  assert (E * (Q / INR m) <= g / 4).
  { apply Rmult_le_reg_r with (INR m); [exact HI|]. replace (E * (Q / INR m) * INR m) with (E * Q) by (field; lra).
    assert (4 * E * Q / g * g <= INR m * g) by (apply Rmult_le_compat_r; lra). replace (4 * E * Q / g * g) with (4 * E * Q) in H0 by (field; lra). lra. }
  lra.
Qed.
Lemma Er : 1 <= exp (Rabs r * t). Proof. rewrite <- exp_0. apply exp_le. pose proof (Rabs_pos r). nra. Qed.

Lemma flat_le x v : (forall x, x < l -> V 0 x <= Rmax (exp x - K) 0) -> x < l -> american_value (call_put true K) r b s t (exp x) v -> V t x <= v.
Proof.
  intros Hend Hxl (B & HB & _). destruct beyond as (A & HA & Hbey). destruct (core r b s t l Hs Ht V Hmart A p HA Hp) as (C & HC & HX).
  apply Rnot_lt_le. intro N. set (g := V t x - v). assert (Hg : 0 < g) by (unfold g; lra).
  destruct (small_lim _ C g HC Er Hg) as (e & n & He & Hsm). set (m := S n). assert (Hm : (0 < m)%nat) by (unfold m; lia). specialize (Hsm m ltac:(unfold m; lia) Hm).
  destruct (HB m Hm) as [HBm HBv].
  pose proof (HX e m (fun k y v => bermudan (call_put true K) r b s (t / INR m) k (exp y) v) He Hm) as X. cbv zeta in X.
  assert (HI : 0 < INR m) by now apply lt_0_INR. assert (Hh : 0 < t / INR m) by (apply Rdiv_lt_0_compat; lra).
  assert (Y : V t x <= B m + exp (Rabs r * t) * (e + C / e ^ 3 / INR m)).
  { apply X; try assumption.
    - intros k y w Hk Hy Hw. assert (Hf : call_put true K (exp y) <= w) by (destruct k; cbn [bermudan] in Hw; [lra|destruct Hw as (f' & c & _ & _ & ->); apply Rmax_l]).
      pose proof (pos_INR k). assert (0 <= INR k * (t / INR m)) by (apply Rmult_le_pos; lra).
      pose proof (Hbey (INR k * (t / INR m)) (y - l) ltac:(lra) ltac:(lra)) as Z. replace (l + (y - l)) with y in Z by ring. apply Rabs_le_between in Z. unfold call_put in Hf. pose proof (Rmax_l (exp y - K) 0).
      assert (exp l <= exp y) by (now apply exp_le). lra.
    - intros y w Hy Hw. cbn [bermudan] in Hw. pose proof (Hend y Hy). unfold call_put in Hw. lra.
    - intros k y w Hy (f & c & Hf & Hc & ->). exists (fun y => f (exp y)), c. split; [intro y'; apply Hf, exp_pos|]. split; [|apply Rmax_r].
      eapply is_mean_ext; [|exact Hc]. intro z. cbv beta. do 2 f_equal. unfold lognormal1. symmetry. apply exp_plus. }
  unfold g in *. lra.
Qed.
End Flat.
