(** Stability of binomial trees in floating-point arithmetic (C72): computed prices and exact ones. *)
From Coq Require Import Reals QArith Qreals ZArith String List Arith Lra Lia Psatz.
From Verif Require Import Num Py Arr MTrees STrees MFloat SFloat PTrees PTrees2 PTrees3 PTrees4 PSpread3 PFloat PFloat2 PFloat6 PFloat7.
Import ListNotations.
Open Scope R_scope.

Lemma bnode_eq n (t1 t2 : nat -> R) f1 f2 : (forall i, t1 i = t2 i) -> (forall j i vu vd, f1 j i vu vd = f2 j i vu vd) -> forall m i, bnode n t1 f1 m i = bnode n t2 f2 m i.
Proof. intros Ht Hf. induction m as [|m IH]; intro i; cbn [bnode]; [apply Ht|]. now rewrite !IH, Hf. Qed.

(** the computed price *)
Lemma float_value A u eta (HA : accurate_fp A u eta) k S K t r b s n (call am : bool) : n <> 0%nat ->
  let dt := rnd A (t / rnd A (INR n)) in let '(fu, fd) := float_moves A k b s dt in let p := float_prob A k b s dt in let Df := f_exp A (rnd A (- r * dt)) in
  @tree_price R (FNum A) (Bi k) (mkTree S K t r b s (the_type am) n) call false = Ok (Price (
    bnode n (fun i => fclip A (fex A call S K (f_powi A fu i) (f_powi A fd (n - i))))
      (fun j i vu vd => let c := fcont A p (rnd A (rnd A 1 - p)) Df vu vd in if am then Rmax (fex A call S K (f_powi A fu i) (f_powi A fd (j - i))) c else c) n 0)).
Proof.
  intros Hn dt. destruct (float_moves A k b s dt) as [fu fd] eqn:EM. intros p Df. set (o := mkTree S K t r b s (the_type am) n).
  rewrite (fprice A (Bi k) o call am Hn eq_refl). f_equal. f_equal. unfold fvalue, bi_value. change (to_n o) with n.
  assert (Edt : @bi_dt R (FNum A) o = dt) by (unfold bi_dt, ofnat, dt; cbn [div ofZ to_t to_n o FNum]; now rewrite <- INR_IZR_INZ).
  assert (Eu : @bi_u R (FNum A) k o = fu) by (apply (f_equal fst) in EM; cbn [fst] in EM; rewrite <- EM, <- Edt; destruct k; reflexivity).
  assert (Ed : @bi_d R (FNum A) k o = fd) by (apply (f_equal snd) in EM; cbn [snd] in EM; rewrite <- EM, <- Edt; destruct k; reflexivity).
  assert (Ep : @bi_p R (FNum A) k o = p) by (unfold p; rewrite <- Edt; destruct k; reflexivity).
  assert (ED : @bi_Df R (FNum A) o = Df) by (unfold bi_Df; rewrite Edt; reflexivity).
  change (@bi_u R (NF A)) with (@bi_u R (FNum A)). change (@bi_d R (NF A)) with (@bi_d R (FNum A)). change (@bi_p R (NF A)) with (@bi_p R (FNum A)). change (@bi_Df R (NF A)) with (@bi_Df R (FNum A)). rewrite Eu, Ed, Ep, ED.
  assert (Z : rnd A (IZR (zZ call)) = zof call). { destruct call; cbn [zZ zof]; [apply (a_1 A u eta HA)|]. change (IZR (-1)) with (- (1)). now rewrite (a_opp A u eta HA), (a_1 A u eta HA). }
  assert (EX : forall j i, @bi_ex R (NF A) (zZ call) S K fu fd j i = fex A call S K (f_powi A fu i) (f_powi A fd (j - i))) by (intros j i; unfold bi_ex, fex; cbn [ofZ mul sub powi NF FNum]; now rewrite Z).
  apply bnode_eq.
  - intro i. change (to_S o) with S. change (to_K o) with K. rewrite EX. reflexivity.
  - intros j i vu vd. cbv zeta. change (to_S o) with S. change (to_K o) with K. rewrite EX, PFloat.pymax_Rmax. reflexivity.
Qed.

(** the exact price *)
Lemma exact_value k S K t r b s n (call am : bool) : n <> 0%nat -> 0 < t -> 0 < s ->
  let dt := t / INR n in let U := step_u k b s dt in let D := step_d k b s dt in let p := step_p k b s dt in let Df := exp (- r * dt) in
  tree_price (Bi k) (mkTree S K t r b s (the_type am) n) call false = Ok (Price (
    bnode n (fun i => Rmax (zof call * (S * U ^ i * D ^ (n - i) - K)) 0)
      (fun j i wu wd => let c := (p * wu + (1 - p) * wd) * Df in if am then Rmax (zof call * (S * U ^ i * D ^ (j - i) - K)) c else c) n 0)).
Proof.
  intros Hn Ht Hs dt U D p Df. assert (Hs0 : s <> 0) by lra. set (o := mkTree S K t r b s (the_type am) n).
  transitivity (bi_calc_price k o (if call then 1 else -1) false); [destruct call; reflexivity|]. rewrite (bi_price_value k o _ am Hn eq_refl). f_equal. f_equal. unfold bi_value. change (to_n o) with n.
  assert (Z : IZR (if call then 1%Z else (-1)%Z) = zof call) by (destruct call; reflexivity). unfold o. rewrite link_u, link_d, link_p, bi_Df_eq by assumption. fold dt U D p Df. cbn [to_S to_K].
  apply bnode_eq.
  - intro i. rewrite clip_Rmax. unfold bi_ex. toR. now rewrite Z.
  - intros j i vu vd. cbv zeta. rewrite PTrees2.pymax_Rmax. unfold bi_ex. toR. now rewrite Z.
Qed.

Lemma mean_le k t b s n : n <> 0%nat -> 0 < t -> 0 < s -> let dt := t / INR n in step_p k b s dt * step_u k b s dt + (1 - step_p k b s dt) * step_d k b s dt <= exp (b * dt).
Proof.
  intros Hn Ht Hs dt. assert (Hs0 : s <> 0) by lra. assert (Hdt : 0 < dt) by (apply Rdiv_lt_0_compat; [exact Ht|apply lt_0_INR; lia]).
  assert (G : Bi k <> Bi JR -> step_p k b s dt * step_u k b s dt + (1 - step_p k b s dt) * step_d k b s dt <= exp (b * dt)).
  { intro Hk. pose proof (moves_forward 1 1 t 0 b s n Hn Ht Hs0 (Bi k) Hk) as M. fold dt in M. cbn [moves map fst snd sumR fold_right] in M. lra. }
  destruct k; try (apply G; discriminate). clear G. cbn [step_p step_u step_d].
  set (m := (b - s ^ 2 / 2) * dt). set (h := s * sqrt dt). unfold Rminus. rewrite !exp_plus. replace (b * dt) with (m + h ^ 2 / 2) by (unfold m, h; rewrite Rpow_mult_distr, pow2_sqrt by lra; field). rewrite exp_plus.
  pose proof (cosh_le h) as C. replace (1 / 2 * (exp m * exp h) + (1 + - (1 / 2)) * (exp m * exp (- h))) with (exp m * ((exp h + exp (- h)) / 2)) by field. apply Rmult_le_compat_l; [apply Rlt_le, exp_pos|exact C].
Qed.

Lemma step_d_le_u k b s dt : 0 <= s -> 0 <= dt -> step_d k b s dt <= step_u k b s dt.
Proof.
  intros Hs Hd. assert (E : forall x y, x <= y -> exp x <= exp y) by (intros x y [H| ->]; [now apply Rlt_le, exp_increasing|apply Rle_refl]). assert (0 <= s * sqrt dt) by (apply Rmult_le_pos; [exact Hs|apply sqrt_pos]). destruct k; cbn [step_d step_u]; [apply E; lra|apply E; lra|].
  cbv zeta. apply Rmult_le_compat_l; [|pose proof (sqrt_pos (exp (s ^ 2 * dt) ^ 2 + 2 * exp (s ^ 2 * dt) - 3)); lra]. pose proof (exp_pos (b * dt)). pose proof (exp_pos (s ^ 2 * dt)). unfold Rdiv. apply Rmult_le_pos; [apply Rmult_le_pos; lra|lra].
Qed.

Lemma min_pow d n i : 0 < d -> (i <= n)%nat -> 0 <= Rmin 1 d ^ n <= d ^ i /\ Rmin 1 d ^ n <= 1.
Proof.
  intros Hd Hi. assert (M : 0 <= Rmin 1 d <= 1) by (split; [apply Rmin_glb; lra|apply Rmin_l]). assert (P : forall m, 0 <= Rmin 1 d ^ m <= 1).
  { intro m. split; [apply pow_le; lra|]. apply Rle_trans with (1 ^ m); [apply pow_incr; lra|rewrite pow1; lra]. }
  split; [|apply P]. split; [apply P|]. replace n with (i + (n - i))%nat by lia. rewrite pow_add. apply Rle_trans with (Rmin 1 d ^ i * 1); [apply Rmult_le_compat_l; apply P|]. rewrite Rmult_1_r. apply pow_incr. split; [apply M|apply Rmin_r].
Qed.

(*@ C72_stability | Rounding errors in binomial trees: if the moves, the weight and the discount factor of one step are computed with error at most delta and without division by zero, the computed price of a European or American option differs from the price in exact arithmetic by at most 40 n delta exp((|r| + |b|) t) (S + K). *)
Lemma c72_stability : forall A u eta, accurate_fp A u eta -> forall k S K t r b sigma n delta (call am : bool), 0 < S -> 0 < K -> 0 < t -> 0 < sigma -> n <> 0%nat ->
  let dt := t / INR n in let fdt := rnd A (t / rnd A (INR n)) in let U := step_u k b sigma dt in let D := step_d k b sigma dt in let p := step_p k b sigma dt in
  0 <= p <= 1 -> U <= 3 -> u <= delta -> INR n * delta <= / 1000 -> eta <= delta * K -> eta <= delta * (Rmin 1 S * Rmin 1 D ^ n) ->
  (let '(fu, fd) := float_moves A k b sigma fdt in (k <> JR -> rnd A (fu - fd) <> 0) /\ Rabs (fu - U) <= delta * U /\ Rabs (fd - D) <= delta * D) ->
  Rabs (float_prob A k b sigma fdt - p) <= delta -> Rabs (f_exp A (rnd A (- r * fdt)) - exp (- r * dt)) <= delta * exp (- r * dt) ->
  exists x v, @tree_price R (FNum A) (Bi k) (mkTree S K t r b sigma (the_type am) n) call false = Ok (Price x) /\
    tree_price (Bi k) (mkTree S K t r b sigma (the_type am) n) call false = Ok (Price v) /\
    Rabs (x - v) <= 40 * (INR n * delta) * exp ((Rabs r + Rabs b) * t) * (S + K).
Proof.
  intros A u eta HA k S K t r b s n w call am HS HK Ht Hs Hn dt fdt U D p Hp HU3 Huw Hnw EK ES Hm HpE HDE.
  pose proof (float_value A u eta HA k S K t r b s n call am Hn) as FV. cbv zeta in FV. fold fdt in FV. destruct (float_moves A k b s fdt) as [fu fd]. destruct Hm as (_ & Cu & Cd).
  do 2 eexists. split; [exact FV|]. split; [exact (exact_value k S K t r b s n call am Hn Ht Hs)|]. fold dt. fold U. fold D. fold p.
  assert (Hs0 : s <> 0) by lra. assert (HN : 0 < INR n) by (apply lt_0_INR; lia). assert (Hdt : 0 < dt) by now apply Rdiv_lt_0_compat. destruct (step_ud_pos 1 1 t 0 b s n Hn Ht Hs0 k) as [PU PD]. fold dt in PU, PD. fold U in PU. fold D in PD.
  assert (DU : D <= U) by (apply step_d_le_u; lra). set (L := exp ((Rabs r + Rabs b) * dt)). assert (EL : exp ((Rabs r + Rabs b) * t) = L ^ n). { unfold L. rewrite exp_pow. f_equal. unfold dt. field. lra. } rewrite EL.
  assert (E : forall x y, x <= y -> exp x <= exp y) by (intros x y [H| ->]; [now apply Rlt_le, exp_increasing|apply Rle_refl]). pose proof (Rabs_pos r) as Rr. pose proof (Rabs_pos b) as Rb. pose proof (RRle_abs b) as Ab. pose proof (RRle_abs (- r)) as Ar. rewrite Rabs_Ropp in Ar.
  assert (rdt : 0 <= Rabs r * dt) by (apply Rmult_le_pos; lra). assert (bdt : 0 <= Rabs b * dt) by (apply Rmult_le_pos; lra). assert (rdt' : - r * dt <= Rabs r * dt) by (apply Rmult_le_compat_r; lra). assert (bdt' : b * dt <= Rabs b * dt) by (apply Rmult_le_compat_r; lra).
  pose proof (u_range A u eta HA) as Hu. assert (Hw0 : 0 <= w) by lra. assert (HmS : 0 < Rmin 1 S <= S /\ Rmin 1 S <= 1) by (split; [split; [apply Rmin_glb_lt; lra|apply Rmin_r]|apply Rmin_l]).
  apply (tree_close A u eta HA S K U D p (exp (- r * dt)) L w fu fd _ _ n call am); try assumption; try lra.
  - apply exp_pos.
  - unfold L. rewrite <- exp_0. apply E. lra.
  - apply E. lra.
  - unfold L. apply Rle_trans with (exp (- r * dt) * exp (b * dt)); [apply Rmult_le_compat_l; [apply Rlt_le, exp_pos|now apply mean_le]|]. rewrite <- exp_plus. apply E. lra.
  - intros i Hi. destruct (min_pow D n i PD Hi) as [[M0 M1] M2]. assert (MU : D ^ i <= U ^ i) by (apply pow_incr; lra). set (m := Rmin 1 D ^ n) in *.
    assert (X1 : Rmin 1 S * m <= 1 * m) by (apply Rmult_le_compat_r; lra). assert (X2 : Rmin 1 S * m <= S * U ^ i) by (apply Rmult_le_compat; lra).
    repeat split; (eapply Rle_trans; [exact ES|]; apply Rmult_le_compat_l; lra).
  - destruct (min_pow D n 0 PD ltac:(lia)) as [[M0 _] M2]. set (m := Rmin 1 D ^ n) in *. assert (X1 : Rmin 1 S * m <= 1 * 1) by (apply Rmult_le_compat; lra). eapply Rle_trans; [exact ES|]. rewrite <- (Rmult_1_r w) at 2. apply Rmult_le_compat_l; lra.
Qed.
