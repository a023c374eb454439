(** The trinomial spread tree (C41). *)
From Coq Require Import Reals ZArith QArith Qreals String List Arith Lra Lia.
From Verif Require Import Num Py Arr MTrees MSpread STrees SLattice SSpread PTrees PStop PGen PTrees3.
Import ListNotations.
Open Scope R_scope.

Definition mat (s : nat) (F : nat -> nat -> R) : list (list R) :=
  map (fun i => map (F i) (seq 0 s)) (seq 0 s).

Lemma nth_map_seq {A} (f : nat -> A) a s i : (i < s)%nat -> nth_error (map f (seq a s)) i = Some (f (a + i)%nat).
Proof.
  intro H. rewrite nth_error_map.
  rewrite (nth_error_nth' (seq a s) 0%nat) by (now rewrite seq_length). rewrite seq_nth by auto. reflexivity.
Qed.
Lemma mget_mat s F i j : (i < s)%nat -> (j < s)%nat -> mget (mat s F) i j = Ok (F i j).
Proof.
  intros. unfold mget, get, mat. rewrite nth_map_seq by auto. cbn. rewrite nth_map_seq by auto. reflexivity.
Qed.
Lemma mapM_ok {A B} (f : A -> res B) (g : A -> B) l : (forall x, In x l -> f x = Ok (g x)) -> mapM f l = Ok (map g l).
Proof.
  induction l as [|x l IH]; intro H; cbn; auto. rewrite H by (now left). cbn. rewrite IH by (intros; apply H; now right). reflexivity.
Qed.
Definition nxt (Df : R) (F : nat -> nat -> R) (i j : nat) : R :=
  Df * sumR (map (fun ab => pm9 ab * F (i + fst ab)%nat (j + snd ab)%nat) nine).

Lemma window_ok M Df F i j :
  (forall a b, (a <= 2)%nat -> (b <= 2)%nat -> mget M (i + a) (j + b) = Ok (F (i + a)%nat (j + b)%nat)) ->
  ts_window M Df i j = Ok (nxt Df F i j).
Proof.
  intro H. unfold ts_window. cbn [seq list_prod map app for_ fst snd].
  rewrite !H by lia. cbn [bind]. f_equal. unfold nxt, nine, pm9, third, ts_pm.
  cbn [list_prod map app fst snd Nat.eqb sumR fold_right]. toR. lra.
Qed.
Lemma map_seq1 {A} (f : nat -> A) k : map (fun i => f (i - 1)%nat) (seq 1 k) = map f (seq 0 k).
Proof. rewrite <- seq_shift, map_map. apply map_ext. intro. f_equal. lia. Qed.
Lemma mat_len s F : List.length (mat s F) = s.
Proof. unfold mat. now rewrite map_length, seq_length. Qed.
Lemma nodes_ok s Df F : (2 <= s)%nat -> ts_calc_nodes (mat s F) Df = Ok (mat (s - 2) (nxt Df F)).
Proof.
  intro Hs. unfold ts_calc_nodes. rewrite mat_len.
  rewrite (mapM_ok _ (fun i => map (fun j => nxt Df F (i - 1) (j - 1)) (seq 1 (s - 2)))).
  - f_equal. unfold mat. rewrite <- map_seq1. apply map_ext. intro i. now rewrite <- map_seq1.
  - intros i Hi. apply in_seq in Hi. apply mapM_ok. intros j Hj. apply in_seq in Hj.
    apply window_ok. intros. apply mget_mat; lia.
Qed.
Lemma pad_get s F p i k : (i < s)%nat -> (k < s)%nat -> mget (ts_pad (mat s F) p) (p + i) (p + k) = Ok (F i k).
Proof.
  intros Hi Hk. unfold mget, get, ts_pad. rewrite nth_error_app2 by (rewrite repeat_length; lia).
  rewrite repeat_length. replace (p + i - p)%nat with i by lia.
  rewrite nth_error_app1 by (rewrite map_length, mat_len; lia).
  rewrite nth_error_map. unfold mat at 1. rewrite nth_map_seq by auto. cbn [option_map of_opt bind].
  rewrite nth_error_app2 by (rewrite repeat_length; lia). rewrite repeat_length. replace (p + k - p)%nat with k by lia.
  rewrite nth_error_app1 by (rewrite map_length, seq_length; lia). rewrite nth_map_seq by auto. reflexivity.
Qed.

Fixpoint U (Df : R) (F : nat -> nat -> R) (m : nat) : nat -> nat -> R :=
  match m with O => F | Datatypes.S m' => nxt Df (U Df F m') end.

Lemma for_app {A S} (l l' : list A) (f : A -> S -> res S) s :
  for_ (l ++ l') f s = bind (for_ l f s) (for_ l' f).
Proof. revert s. induction l; intro s; cbn; auto. destruct (f a s); cbn; auto. Qed.

Lemma euro_loop n Df F k : (k < n)%nat -> exists tr,
  for_ (seq 1 k) (fun j st => let '(old, tr) := st in
          latest <- ts_calc_nodes old Df ;; Ok (latest, tr ++ [ts_pad latest j]))%py (mat (2 * n + 1) F, [])
  = Ok (mat (2 * (n - k) + 1) (U Df F k), tr) /\ List.length tr = k /\
  (k <> 0%nat -> nth_error (rev tr) 0 = Some (ts_pad (mat (2 * (n - k) + 1) (U Df F k)) k)).
Proof.
  induction k; intro H.
  - exists []. rewrite Nat.sub_0_r. split; [reflexivity|]. split; [reflexivity|]. congruence.
  - destruct IHk as (tr & E & L & _); [lia|]. rewrite seq_S, for_app, E. cbn [bind for_].
    rewrite nodes_ok by lia. cbn [bind].
    replace (2 * (n - k) + 1 - 2)%nat with (2 * (n - Datatypes.S k) + 1)%nat by lia.
    eexists. split; [reflexivity|]. split; [rewrite app_length; cbn; lia|]. intros _. rewrite rev_app_distr. reflexivity.
Qed.

Definition nat_act (ab ij : nat * nat) : nat * nat := (fst ij + fst ab, snd ij + snd ab)%nat.
Lemma U_GV Df F m i j : U Df F m i j = GV pm9 nat_act nine Df false (fun ij => F (fst ij) (snd ij)) m (i, j).
Proof. revert i j. induction m; intros i j; cbn [U GV]; auto. unfold nxt. do 2 f_equal. apply map_ext. intro. now rewrite IHm. Qed.

(** one step multiplies the two prices by powers of the step sizes *)
Definition mv9 (h1 v1 h2 v2 : R) (ab : nat * nat) (x : R * R) : R * R :=
  (fst x * (powerRZ v1 (2 * (1 - Z.of_nat (fst ab))) * powerRZ h1 (2 * (Z.of_nat (snd ab) - 1))),
   snd x * (powerRZ v2 (2 * (1 - Z.of_nat (fst ab))) * powerRZ h2 (2 * (Z.of_nat (snd ab) - 1)))).

Lemma gauss_RZ h v n i j : h <> 0 -> v <> 0 -> (i <= 2 * n)%nat -> (j <= 2 * n)%nat ->
  ts_gauss h v n i j = powerRZ v (2 * (Z.of_nat n - Z.of_nat i)) * powerRZ h (2 * (Z.of_nat j - Z.of_nat n)).
Proof.
  intros Hh Hv Hi Hj. unfold ts_gauss. toR.
  assert (I : forall x, 1 / x = / x) by (intro; unfold Rdiv; ring). rewrite !I, !pow_inv.
  rewrite !pow_powerRZ. rewrite <- !powerRZ_neg' by auto. 
  assert (E1 : forall x a b, x <> 0 -> powerRZ x a * powerRZ x b = powerRZ x (a + b)) by (intros; now rewrite powerRZ_add).
  rewrite !E1 by auto. f_equal; f_equal; lia.
Qed.

Lemma powerRZ_exp x z : powerRZ (exp x) z = exp (IZR z * x).
Proof.
  destruct z as [|p|p].
  - cbn. now rewrite Rmult_0_l, exp_0.
  - cbn [powerRZ]. rewrite exp_pow. f_equal. rewrite INR_IZR_INZ, positive_nat_Z. reflexivity.
  - cbn [powerRZ]. rewrite exp_pow, <- exp_Ropp. f_equal. rewrite INR_IZR_INZ, positive_nat_Z.
    rewrite <- Pos2Z.opp_pos, opp_IZR. ring.
Qed.

Section Main.
Variables (S1 S2 K t r b s1 s2 rho : R) (ty : string) (n : nat) (z : Z).
Let o := mkTS S1 S2 K t r b s1 s2 rho ty n.

Lemma state_GV G m i j :
  (i + 2 * m <= 2 * n)%nat -> (j + 2 * m <= 2 * n)%nat ->
  let st := fun i j => (S1 * ts_gauss (ts_h1 o) (ts_v1 o) n i j, S2 * ts_gauss (ts_h2 o) (ts_v2 o) n i j) in
  (* with m steps left the process started in the middle has made n - m steps *)
  GV pm9 nat_act nine (ts_Df o) false (fun ij => G (st (fst ij) (snd ij))) m (i, j)
  = GV pm9 (mv9 (ts_h1 o) (ts_v1 o) (ts_h2 o) (ts_v2 o)) nine (ts_Df o) false G m
      (S1 * (powerRZ (ts_v1 o) (2 * (Z.of_nat n - Z.of_nat m - Z.of_nat i)) * powerRZ (ts_h1 o) (2 * (Z.of_nat j + Z.of_nat m - Z.of_nat n))),
       S2 * (powerRZ (ts_v2 o) (2 * (Z.of_nat n - Z.of_nat m - Z.of_nat i)) * powerRZ (ts_h2 o) (2 * (Z.of_nat j + Z.of_nat m - Z.of_nat n)))).
Proof.
  assert (Hh1 : ts_h1 o <> 0) by (apply Rgt_not_eq, exp_pos).
  assert (Hv1 : ts_v1 o <> 0) by (apply Rgt_not_eq, exp_pos).
  assert (Hh2 : ts_h2 o <> 0) by (apply Rgt_not_eq, exp_pos).
  assert (Hv2 : ts_v2 o <> 0) by (apply Rgt_not_eq, exp_pos).
  intros Hi Hj st. revert i j Hi Hj. induction m; intros i j Hi Hj.
  - cbn [GV fst snd]. unfold st. rewrite !gauss_RZ by (auto; lia). cbn [Z.of_nat].
    do 2 f_equal; f_equal; f_equal; f_equal; lia.
  - cbn [GV]. do 2 f_equal. apply map_ext_in. intros [a c] Hin. f_equal.
    unfold nat_act at 2. cbn [fst snd].
    assert (Hac : (a <= 2)%nat /\ (c <= 2)%nat).
    { unfold nine in Hin. apply in_prod_iff in Hin. cbn in Hin. lia. }
    rewrite IHm by lia. f_equal. unfold mv9. cbn [fst snd].
    assert (E1 : forall x a b, x <> 0 -> powerRZ x a * powerRZ x b = powerRZ x (a + b)) by (intros; now rewrite powerRZ_add).
    f_equal; rewrite !Rmult_assoc; f_equal;
      match goal with |- _ = ?p * (?q * (?p' * ?q')) => replace (p * (q * (p' * q'))) with ((p * p') * (q * q')) by ring end;
      rewrite !E1 by auto; f_equal; f_equal; lia.
Qed.

Lemma ts_price_eq : (2 <= n)%nat ->
  ts_calc_price o z = Ok (GV pm9 (mv9 (ts_h1 o) (ts_v1 o) (ts_h2 o) (ts_v2 o)) nine (ts_Df o) false
     (fun x => Rmax 0 ((fst x - snd x - K) * IZR z)) n (S1, S2)).
Proof.
  intro Hn. unfold ts_calc_price. change (ts_n o) with n. destruct (Nat.eqb_spec n 0); [lia|]. cbv zeta.
  change (map (fun i => map (ts_payoff o z i) (seq 0 (2 * n + 1))) (seq 0 (2 * n + 1))) with (mat (2 * n + 1) (ts_payoff o z)).
  unfold ts_euro. destruct (euro_loop n (ts_Df o) (ts_payoff o z) (n - 1) ltac:(lia)) as (tr & E & _ & E2).
  rewrite E. cbn [bind snd]. rewrite E2 by lia. cbn [of_opt bind].
  replace (n - (n - 1))%nat with 1%nat by lia. change (2 * 1 + 1)%nat with 3%nat.
  rewrite (window_ok _ _ (fun i j => U (ts_Df o) (ts_payoff o z) (n - 1) (i - (n - 1)) (j - (n - 1)))).
  - f_equal. transitivity (U (ts_Df o) (ts_payoff o z) n 0 0).
    + assert (EU : forall D F k, k <> 0%nat -> U D F k 0 0 = nxt D (U D F (k - 1)) 0 0).
      { intros D F [|k]; [lia|]. intros _. cbn [U]. now replace (Datatypes.S k - 1)%nat with k by lia. }
      rewrite EU by lia. unfold nxt. do 2 f_equal. apply map_ext.
      intros [a c]. cbn [fst snd]. f_equal. f_equal; lia.
    + rewrite U_GV. rewrite (GV_ext _ _ _ _ _ _ (fun ij => (fun x => Rmax 0 ((fst x - snd x - K) * IZR z))
         (S1 * ts_gauss (ts_h1 o) (ts_v1 o) n (fst ij) (snd ij), S2 * ts_gauss (ts_h2 o) (ts_v2 o) n (fst ij) (snd ij)))) by reflexivity.
      rewrite (state_GV (fun x => Rmax 0 ((fst x - snd x - K) * IZR z))) by lia. f_equal.
      replace (2 * (Z.of_nat n - Z.of_nat n - Z.of_nat 0))%Z with 0%Z by lia.
      replace (2 * (Z.of_nat 0 + Z.of_nat n - Z.of_nat n))%Z with 0%Z by lia. cbn [powerRZ]. f_equal; ring.
  - intros a c Ha Hc. rewrite pad_get by lia. f_equal. f_equal; lia.
Qed.
End Main.

Section Spell.
Variables (S1 S2 K t r b s1 s2 rho : R) (ty : string) (n : nat).
Let o := mkTS S1 S2 K t r b s1 s2 rho ty n.
Let dt := t / INR n.
Lemma ts_dt_eq : ts_dt o = dt.
Proof. unfold ts_dt, dt, ofnat, o. cbn [ts_t ts_n]. toR. now rewrite INR_IZR. Qed.
Lemma ts_root_eq : ts_root o = sqrt ((s1 ^ 2 + s2 ^ 2) ^ 2 - 4 * (1 - rho ^ 2) * s1 ^ 2 * s2 ^ 2).
Proof. unfold ts_root, ts_sdp, o. cbn [ts_sigma1 ts_sigma2 ts_rho]. toR. f_equal. ring. Qed.
Lemma ts_lam1_eq : ts_lam1 o = eig true s1 s2 rho.
Proof. unfold ts_lam1. rewrite ts_root_eq. unfold ts_sdp, o, eig. cbn [ts_sigma1 ts_sigma2]. toR. lra. Qed.
Lemma ts_lam2_eq : ts_lam2 o = eig false s1 s2 rho.
Proof. unfold ts_lam2. rewrite ts_root_eq. unfold ts_sdp, o, eig. cbn [ts_sigma1 ts_sigma2]. toR. lra. Qed.
Lemma ts_the_eq : ts_the o = rot s1 s2 rho.
Proof. unfold ts_the. rewrite ts_lam1_eq. unfold rot, o. cbn [ts_sigma1 ts_sigma2 ts_rho]. toR. do 2 f_equal. ring. Qed.
Lemma ts_h1_eq : ts_h1 o = exp (log_h1 s1 s2 rho dt).
Proof. unfold ts_h1. rewrite ts_lam2_eq, ts_the_eq, ts_dt_eq. unfold log_h1, o. cbn [ts_sigma1]. toR. f_equal. lra. Qed.
Lemma ts_v1_eq : ts_v1 o = exp (log_v1 s1 s2 rho dt).
Proof. unfold ts_v1. rewrite ts_lam1_eq, ts_the_eq, ts_dt_eq. unfold log_v1, o. cbn [ts_sigma1]. toR. f_equal. lra. Qed.
Lemma ts_h2_eq : ts_h2 o = exp (log_h2 s1 s2 rho dt).
Proof. unfold ts_h2. rewrite ts_lam2_eq, ts_the_eq, ts_dt_eq. unfold log_h2, o. cbn [ts_sigma2]. toR. f_equal. lra. Qed.
Lemma ts_v2_eq : ts_v2 o = exp (log_v2 s1 s2 rho dt).
Proof. unfold ts_v2. rewrite ts_lam1_eq, ts_the_eq, ts_dt_eq. unfold log_v2, o. cbn [ts_sigma2]. toR. f_equal. lra. Qed.
Lemma ts_Df_eq : ts_Df o = exp (b - r * dt).
Proof. unfold ts_Df. rewrite ts_dt_eq. reflexivity. Qed.

Lemma mv9_ret ab x : mv9 (ts_h1 o) (ts_v1 o) (ts_h2 o) (ts_v2 o) ab x = ret_act s1 s2 rho dt ab x.
Proof.
  unfold mv9, ret_act, ret1, ret2. rewrite ts_h1_eq, ts_v1_eq, ts_h2_eq, ts_v2_eq, !powerRZ_exp, <- !exp_plus.
  rewrite !mult_IZR, !minus_IZR, <- !INR_IZR_INZ. reflexivity.
Qed.
End Spell.

Lemma GV_act_ext {A X} (w : A -> R) (act act' : A -> X -> X) mv Df amer g m x :
  (forall a y, act a y = act' a y) -> GV w act mv Df amer g m x = GV w act' mv Df amer g m x.
Proof.
  intro H. revert x. induction m; intro x; cbn [GV]; auto.
  assert (E : map (fun a => w a * GV w act mv Df amer g m (act a x)) mv = map (fun a => w a * GV w act' mv Df amer g m (act' a x)) mv).
  { apply map_ext. intro a. now rewrite H, IHm. }
  now rewrite E.
Qed.
Lemma GV_Df {A X} (w : A -> R) (act : A -> X -> X) mv Df c g m x :
  GV w act mv (c * Df) false g m x = c ^ m * GV w act mv Df false g m x.
Proof.
  revert x. induction m; intro x; cbn [GV pow]; [ring|].
  rewrite (sumR_ext _ (fun a => c ^ m * (w a * GV w act mv Df false g m (act a x)))) by (intros; rewrite IHm; ring).
  rewrite sumR_scal. ring.
Qed.

(*@ C41_price | For n >= 2 the call returns the expectation, over all 9^n paths with the product of the weights 1/6, 4/6, 1/6, of the payoff max(0, S1-S2-K), discounted by exp(b - r t/n) at each of the n steps; whatever [type] says. *)
Lemma c41_price : forall S1 S2 K t r b s1 s2 rho ty n, (2 <= n)%nat ->
  ts_call (mkTS S1 S2 K t r b s1 s2 rho ty n) =
  Ok (gexpect pm9 (ret_act s1 s2 rho (t / INR n)) nine (exp (b - r * (t / INR n)))
        (fun x => Rmax 0 (fst x - snd x - K)) n (S1, S2)).
Proof.
  intros * Hn. unfold ts_call. rewrite ts_price_eq by auto. f_equal. rewrite ts_Df_eq.
  rewrite (GV_act_ext _ _ (ret_act s1 s2 rho (t / INR n))) by (intros; apply mv9_ret).
  rewrite <- GV_expect. apply GV_ext. intro. now rewrite Rmult_1_r.
Qed.

(*@ C41_discounting_refuted | The total discount factor is exp(n b - r t), not exp(-r t): the price with carry b is exp(n b) times the price with carry 0, so for b <> 0 and a nonzero price it is wrong and diverges with the number of steps. *)
Lemma c41_disc : forall S1 S2 K t r b s1 s2 rho ty n, (2 <= n)%nat -> exists v,
  ts_call (mkTS S1 S2 K t r 0 s1 s2 rho ty n) = Ok v /\
  ts_call (mkTS S1 S2 K t r b s1 s2 rho ty n) = Ok (exp (INR n * b) * v) /\
  v = exp (- r * t) * sumR (map (fun p => gprob pm9 p *
        (fun x => Rmax 0 (fst x - snd x - K)) (gstate (ret_act s1 s2 rho (t / INR n)) (S1, S2) p)) (gpaths nine n)).
Proof.
  intros * Hn. rewrite !c41_price by auto. eexists. split; [reflexivity|]. split.
  - f_equal. rewrite <- !GV_expect. replace (exp (b - r * (t / INR n))) with (exp b * exp (0 - r * (t / INR n)))
      by (rewrite <- exp_plus; f_equal; ring).
    rewrite GV_Df, exp_pow. reflexivity.
  - unfold gexpect. f_equal. rewrite exp_pow. f_equal. field. apply not_0_INR. lia.
Qed.

(*@ C41_few_steps | With one step the call raises IndexError and with none ZeroDivisionError, whatever the parameters, in any arithmetic. *)
Lemma c41_few : forall (T : Type) (N : Num T) (S1 S2 K t r b s1 s2 rho : T) ty,
  ts_call (mkTS S1 S2 K t r b s1 s2 rho ty 1) = Err IndexError /\
  ts_call (mkTS S1 S2 K t r b s1 s2 rho ty 0) = Err ZeroDivisionError.
Proof. intros. split; reflexivity. Qed.

Lemma ret_sum (f : nat * nat -> R) : sumR (map (fun ab => pm9 ab * f ab) nine) =
  (1 / 36) * (f (0, 0)%nat + f (0, 2)%nat + f (2, 0)%nat + f (2, 2)%nat)
  + (4 / 36) * (f (0, 1)%nat + f (1, 0)%nat + f (1, 2)%nat + f (2, 1)%nat) + 16 / 36 * f (1, 1)%nat.
Proof. unfold nine, pm9, third. cbn [list_prod map app fst snd Nat.eqb sumR fold_right]. field. Qed.

Lemma disc_nonneg s1 s2 rho : 0 <= (s1 ^ 2 + s2 ^ 2) ^ 2 - 4 * (1 - rho ^ 2) * s1 ^ 2 * s2 ^ 2.
Proof.
  replace (_ - _) with ((s1 ^ 2 - s2 ^ 2) ^ 2 + (2 * rho * s1 * s2) ^ 2) by ring.
  apply Rplus_le_le_0_compat; apply pow2_ge_0.
Qed.
Lemma eig_facts s1 s2 rho : -1 <= rho <= 1 ->
  let l1 := eig true s1 s2 rho in let l2 := eig false s1 s2 rho in
  l1 + l2 = s1 ^ 2 + s2 ^ 2 /\ l1 * l2 = (1 - rho ^ 2) * s1 ^ 2 * s2 ^ 2 /\ 0 <= l2 <= l1.
Proof.
  intros Hr l1 l2. unfold l1, l2, eig. cbv zeta.
  set (q := s1 ^ 2 + s2 ^ 2). set (c := (1 - rho ^ 2) * s1 ^ 2 * s2 ^ 2).
  replace (q ^ 2 - 4 * (1 - rho ^ 2) * s1 ^ 2 * s2 ^ 2) with (q ^ 2 - 4 * c) by (unfold c; ring).
  assert (Hd : 0 <= q ^ 2 - 4 * c).
  { pose proof (disc_nonneg s1 s2 rho). replace (4 * c) with (4 * (1 - rho ^ 2) * s1 ^ 2 * s2 ^ 2) by (unfold c; ring). exact H. }
  set (D := sqrt (q ^ 2 - 4 * c)).
  assert (HD : D * D = q ^ 2 - 4 * c) by (apply sqrt_sqrt; auto).
  assert (0 <= D) by apply sqrt_pos.
  assert (Hq : 0 <= q) by (unfold q; pose proof (pow2_ge_0 s1); pose proof (pow2_ge_0 s2); lra).
  assert (Hc : 0 <= c).
  { unfold c. assert (0 <= (1 - rho) * (1 + rho)) by (apply Rmult_le_pos; lra).
    apply Rmult_le_pos; [apply Rmult_le_pos|]; try apply pow2_ge_0. lra. }
  assert (D <= q). { apply Rsqr_incr_0; unfold Rsqr; auto. nra. }
  repeat split; try lra; nra.
Qed.
Lemma rot_identity s1 s2 rho : -1 <= rho <= 1 -> rho <> 0 -> s1 <> 0 -> s2 <> 0 ->
  cos (rot s1 s2 rho) ^ 2 * eig true s1 s2 rho + sin (rot s1 s2 rho) ^ 2 * eig false s1 s2 rho = s1 ^ 2 /\
  sin (rot s1 s2 rho) ^ 2 * eig true s1 s2 rho + cos (rot s1 s2 rho) ^ 2 * eig false s1 s2 rho = s2 ^ 2.
Proof.
  intros Hr H0 H1 H2. destruct (eig_facts s1 s2 rho Hr) as (Es & Ep & L2 & L12).
  set (l1 := eig true s1 s2 rho) in *. set (l2 := eig false s1 s2 rho) in *.
  set (C := rho * s1 * s2). assert (HC : C <> 0) by (unfold C; repeat apply Rmult_integral_contrapositive_currified; auto).
  assert (EC : C ^ 2 = (l1 - s1 ^ 2) * (l1 - s2 ^ 2)).
  { unfold C. assert (l2 = s1 ^ 2 + s2 ^ 2 - l1) by lra. rewrite H in Ep. nra. }
  assert (Hcos : cos (rot s1 s2 rho) <> 0).
  { unfold rot. fold l1 C. pose proof (atan_bound ((l1 - s1 ^ 2) / C)). apply Rgt_not_eq, cos_gt_0; lra. }
  assert (Et : sin (rot s1 s2 rho) = (l1 - s1 ^ 2) / C * cos (rot s1 s2 rho)).
  { rewrite <- (tan_atan ((l1 - s1 ^ 2) / C)) at 1. change (atan ((l1 - s1 ^ 2) / C)) with (rot s1 s2 rho).
    unfold tan. field. exact Hcos. }
  pose proof (sin2_cos2 (rot s1 s2 rho)) as Hsc. unfold Rsqr in Hsc.
  set (c := cos (rot s1 s2 rho)) in *. set (s := sin (rot s1 s2 rho)) in *.
  assert (Esc : s * C = (l1 - s1 ^ 2) * c) by (rewrite Et; field; auto).
  assert (HA : l1 - s1 ^ 2 <> 0). { intro E. rewrite E in EC. assert (C ^ 2 <> 0) by (apply pow_nonzero; auto). lra. }
  (* c² (l1-A)(2 l1 - A - B) = C² = (l1-A)(l1-B) *)
  assert (E1 : c ^ 2 * (2 * l1 - s1 ^ 2 - s2 ^ 2) = l1 - s2 ^ 2).
  { apply (Rmult_eq_reg_l (l1 - s1 ^ 2)); auto.
    replace ((l1 - s1 ^ 2) * (c ^ 2 * (2 * l1 - s1 ^ 2 - s2 ^ 2)))
      with (c ^ 2 * ((l1 - s1 ^ 2) * (l1 - s2 ^ 2)) + ((l1 - s1 ^ 2) * c) ^ 2) by ring.
    rewrite <- Esc, <- EC. replace (c ^ 2 * C ^ 2 + (s * C) ^ 2) with (C ^ 2 * (s * s + c * c)) by ring.
    rewrite Hsc, EC. ring. }
  assert (Es2 : s ^ 2 = 1 - c ^ 2) by nra. assert (El2 : l2 = s1 ^ 2 + s2 ^ 2 - l1) by lra.
  rewrite Es2, El2. split; nra.
Qed.

(*@ C41_volatility_refuted | One step of the tree gives both log-prices mean 0 and variance 4 sigma^2 dt up to a term of order dt^(3/2), bounded explicitly: twice the volatility asked for. *)
Lemma c41_vol : forall s1 s2 rho dt, 0 < dt -> -1 <= rho <= 1 -> rho <> 0 -> s1 <> 0 -> s2 <> 0 ->
  let E := fun f : nat * nat -> R => sumR (map (fun ab => pm9 ab * f ab) nine) in
  E (ret1 s1 s2 rho dt) = 0 /\ E (ret2 s1 s2 rho dt) = 0 /\
  Rabs (E (fun ab => ret1 s1 s2 rho dt ab ^ 2) - 4 * s1 ^ 2 * dt)
    <= 4 / 3 * s1 ^ 2 * dt * (Rabs s1 * sqrt (6 * dt) + s1 ^ 2 * dt / 2) /\
  Rabs (E (fun ab => ret2 s1 s2 rho dt ab ^ 2) - 4 * s2 ^ 2 * dt)
    <= 4 / 3 * s2 ^ 2 * dt * (Rabs s2 * sqrt (6 * dt) + s2 ^ 2 * dt / 2).
Proof.
  intros s1 s2 rho dt Hdt Hr H0 H1 H2 E. subst E. cbv beta.
  assert (B : forall s p w, p ^ 2 + w ^ 2 = 3 * dt * s ^ 2 ->
    Rabs (4 / 3 * ((p - s ^ 2 / 2 * dt) ^ 2 + (w - s ^ 2 / 2 * dt) ^ 2) - 4 * s ^ 2 * dt)
      <= 4 / 3 * s ^ 2 * dt * (Rabs s * sqrt (6 * dt) + s ^ 2 * dt / 2)).
  { clear - Hdt. intros s p w Hpw.
    replace (4 / 3 * ((p - s ^ 2 / 2 * dt) ^ 2 + (w - s ^ 2 / 2 * dt) ^ 2) - 4 * s ^ 2 * dt)
      with (4 / 3 * s ^ 2 * dt * (- (p + w) + s ^ 2 * dt / 2)) by nra.
    assert (Hs : 0 <= s ^ 2) by apply pow2_ge_0.
    assert (Hk : 0 <= 4 / 3 * s ^ 2 * dt) by nra.
    rewrite Rabs_mult, (Rabs_pos_eq (4 / 3 * s ^ 2 * dt)) by auto. apply Rmult_le_compat_l; auto.
    assert (Hb : Rabs (p + w) <= Rabs s * sqrt (6 * dt)).
    { apply Rsqr_incr_0; [|apply Rabs_pos|apply Rmult_le_pos; [apply Rabs_pos|apply sqrt_pos]].
      rewrite <- Rsqr_abs. rewrite Rsqr_mult, <- Rsqr_abs, Rsqr_sqrt by lra. unfold Rsqr.
      pose proof (pow2_ge_0 (p - w)). nra. }
    eapply Rle_trans; [apply Rabs_triang|]. rewrite Rabs_Ropp. rewrite (Rabs_pos_eq (s ^ 2 * dt / 2)) by nra. lra. }
  destruct (rot_identity s1 s2 rho Hr H0 H1 H2) as [I1 I2].
  destruct (eig_facts s1 s2 rho Hr) as (_ & _ & L2 & L12).
  assert (SQ : forall c l, 0 <= l -> (c * sqrt l * sqrt (3 * dt)) ^ 2 = 3 * dt * (c ^ 2 * l)).
  { intros c l Hl. rewrite !Rpow_mult_distr, !pow2_sqrt by lra. ring. }
  rewrite !ret_sum. unfold ret1, ret2. cbn [fst snd INR].
  split; [field|]. split; [field|]. split.
  - eapply Rle_trans; [|apply (B s1 (cos (rot s1 s2 rho) * sqrt (eig true s1 s2 rho) * sqrt (3 * dt))
       (- (sin (rot s1 s2 rho) * sqrt (eig false s1 s2 rho) * sqrt (3 * dt))))].
    + right. f_equal. fold (log_v1 s1 s2 rho dt) (log_h1 s1 s2 rho dt). field.
    + rewrite <- I1. replace ((- (sin (rot s1 s2 rho) * sqrt (eig false s1 s2 rho) * sqrt (3 * dt))) ^ 2)
        with ((sin (rot s1 s2 rho) * sqrt (eig false s1 s2 rho) * sqrt (3 * dt)) ^ 2) by ring.
      rewrite !SQ by lra. ring.
  - eapply Rle_trans; [|apply (B s2 (sin (rot s1 s2 rho) * sqrt (eig true s1 s2 rho) * sqrt (3 * dt))
       (cos (rot s1 s2 rho) * sqrt (eig false s1 s2 rho) * sqrt (3 * dt)))].
    + right. f_equal. fold (log_v2 s1 s2 rho dt) (log_h2 s1 s2 rho dt). field.
    + rewrite <- I2. rewrite !SQ by lra. ring.
Qed.
