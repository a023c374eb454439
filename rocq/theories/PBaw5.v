(** Barone-Adesi-Whaley prices under a change of the unit of money (C43). *)
From Coq Require Import Reals ZArith QArith Qreals List Bool Lra Lia.
From Verif Require Import Num Py MBase MVanilla MAmerican PCnd PCnd2 PBlack PGbs PVanilla SAmerican PBaw.
Open Scope R_scope.

Definition rmap {A B} (f : A -> B) (x : res A) : res B := match x with Ok a => Ok (f a) | Err e => Err e end.
Lemma while_map {A} n (c1 c2 : A -> bool) (b1 b2 : A -> res A) (f : A -> A) :
  (forall a, c2 (f a) = c1 a) -> (forall a, b2 (f a) = rmap f (b1 a)) -> forall a, while_ n c2 b2 (f a) = rmap f (while_ n c1 b1 a).
Proof.
  intros Hc Hb. induction n as [|n IH]; intro a; cbn [while_]; rewrite Hc; destruct (c1 a); try reflexivity.
  rewrite Hb. destruct (b1 a) as [x|e]; cbn [rmap bind]; [apply IH|reflexivity].
Qed.

Section Scale.
Variables S K t r b c : R.
Hypothesis HK : 0 < K.
Hypothesis Hc : 0 < c.
Lemma cdiv x : c * x / (c * K) = x / K.
Proof. field. lra. Qed.
Lemma cquo x y : c * x / (c * y) = x / y.
Proof. destruct (Req_dec y 0) as [-> |H]; [|field; lra]. rewrite Rmult_0_r. unfold Rdiv. rewrite Rinv_0. ring. Qed.
Lemma cdiv2 x y : c * x / y = c * (x / y).
Proof. unfold Rdiv. ring. Qed.
Lemma gbs_c_scale x sg : gbs_c (c * x) (c * K) t r b sg = rmap (Rmult c) (gbs_c x K t r b sg).
Proof.
  destruct sg as [s|]; [|reflexivity]. unfold gbs_c, gbs_call, gbs_call_F, GBSOption, with_d, gbs_d2, gbs_d1. cbn [g_sigma g_S g_K g_t g_r g_b g_d1 g_d2 rmap].
  cbn [add sub mul div opp expn logn sqrn lit RNum]. rewrite cdiv. f_equal. ring.
Qed.
Lemma gbs_p_scale x sg : gbs_p (c * x) (c * K) t r b sg = rmap (Rmult c) (gbs_p x K t r b sg).
Proof.
  destruct sg as [s|]; [|reflexivity]. unfold gbs_p, gbs_put, gbs_put_F, GBSOption, with_d, gbs_d2, gbs_d1. cbn [g_sigma g_S g_K g_t g_r g_b g_d1 g_d2 rmap].
  cbn [add sub mul div opp expn logn sqrn lit RNum]. rewrite cdiv. f_equal. ring.
Qed.
Section Sig.
Variable s : R.
Let o := mkAmer S K t r b (Some s).
Let o' := mkAmer (c * S) (c * K) t r b (Some s).
Lemma d1_scale x : baw_d1 o' s (c * x) = baw_d1 o s x.
Proof. unfold baw_d1. cbn [y_K y_b y_t o o']. cbn [div RNum]. now rewrite cdiv. Qed.
Lemma rhs_c_scale x : baw_rhs_c o' s (c * x) = rmap (Rmult c) (baw_rhs_c o s x).
Proof.
  unfold baw_rhs_c. rewrite d1_scale. cbn [y_K y_b y_t y_r o o']. rewrite gbs_c_scale. destruct (gbs_c x K t r b (Some s)); cbn [rmap bind]; [|reflexivity]. f_equal.
  change (baw_carry o') with (baw_carry o). change (baw_Q2 o' s) with (baw_Q2 o s). cbn [add sub mul div lit RNum]. unfold Rdiv. ring.
Qed.
Lemma rhs_p_scale x : baw_rhs_p o' s (c * x) = rmap (Rmult c) (baw_rhs_p o s x).
Proof.
  unfold baw_rhs_p. rewrite d1_scale. cbn [y_K y_b y_t y_r o o']. rewrite gbs_p_scale. destruct (gbs_p x K t r b (Some s)); cbn [rmap bind]; [|reflexivity]. f_equal.
  change (baw_carry o') with (baw_carry o). change (baw_Q1 o' s) with (baw_Q1 o s). cbn [add sub mul div lit RNum]. unfold Rdiv. ring.
Qed.
Lemma bi_c_scale x : baw_bi_c o' s (c * x) = baw_bi_c o s x.
Proof. unfold baw_bi_c. now rewrite d1_scale. Qed.
Lemma bi_p_scale x : baw_bi_p o' s (c * x) = baw_bi_p o s x.
Proof. unfold baw_bi_p. now rewrite d1_scale. Qed.
Lemma seed_c_scale : baw_seed_c o' s = c * baw_seed_c o s.
Proof.
  unfold baw_seed_c. change (baw_n o' s) with (baw_n o s). cbn [y_K y_b y_t y_r o o']. cbn [add sub mul div opp expn lit RNum].
  set (A := Q2R 1 - _). set (B := - (b * t + _)). rewrite cdiv2. replace (c * (K / A) - c * K) with (c * (K / A - K)) by ring. replace (B * (c * K)) with (c * (B * K)) by ring. rewrite cquo. ring.
Qed.
Lemma seed_p_scale : baw_seed_p o' s = c * baw_seed_p o s.
Proof.
  unfold baw_seed_p. change (baw_n o' s) with (baw_n o s). cbn [y_K y_b y_t y_r o o']. cbn [add sub mul div opp expn lit RNum].
  set (A := Q2R 1 - _). set (B := b * t - _). rewrite cdiv2. replace (c * K - c * (K / A)) with (c * (K - K / A)) by ring. replace (B * (c * K)) with (c * (B * K)) by ring. rewrite cquo. ring.
Qed.
Let f (st : R * R * R * R) : R * R * R * R := let '(Si, L, Rh, bi) := st in (c * Si, c * L, c * Rh, bi).
Lemma test_scale (L Rh : R) : (absn (c * L - c * Rh) / (c * K) >? baw_E)%num = (absn (L - Rh) / K >? baw_E)%num.
Proof. cbn [absn RNum sub div]. rewrite <- Rmult_minus_distr_l, Rabs_mult, (Rabs_pos_eq c) by lra. now rewrite cdiv. Qed.
Lemma Kc_scale fuel : baw_Kc fuel o' s = rmap (Rmult c) (baw_Kc fuel o s).
Proof.
  unfold baw_Kc. rewrite seed_c_scale, rhs_c_scale. destruct (baw_rhs_c o s (baw_seed_c o s)) as [Rh|]; cbn [rmap bind]; [|reflexivity]. rewrite bi_c_scale.
  set (st := (baw_seed_c o s, sub (baw_seed_c o s) (y_K o), Rh, baw_bi_c o s (baw_seed_c o s))).
  replace (c * baw_seed_c o s, sub (c * baw_seed_c o s) (y_K o'), c * Rh, baw_bi_c o s (baw_seed_c o s)) with (f st) by (unfold st, f; cbn [y_K o o' sub RNum]; rewrite Rmult_minus_distr_l; reflexivity).
  match goal with |- bind (while_ _ ?c2 ?b2 _) _ = rmap _ (bind (while_ _ ?c1 ?b1 _) _) => rewrite (while_map fuel c1 c2 b1 b2 f) end; [|intros [[[x L] Rh'] bi]; unfold f; cbn [y_K o' o]; exact (test_scale L Rh')|].
  2:{ intros [[[x L] Rh'] bi]. unfold f at 1. cbn [y_K o' o]. replace (div (sub (add (c * K) (c * Rh')) (mul bi (c * x))) (sub (lit 1) bi)) with (c * ((div (sub (add K Rh') (mul bi x)) (sub (lit 1) bi)) : R)) by (cbn [add sub mul div RNum]; unfold Rdiv; ring).
      rewrite rhs_c_scale. fold o. set (y := div _ _). destruct (baw_rhs_c o s y); cbn [rmap bind]; [|reflexivity]. rewrite bi_c_scale. unfold f. cbn [sub RNum]. now rewrite Rmult_minus_distr_l. }
  destruct (while_ _ _ _ st) as [[[[x L] Rh'] bi]|]; reflexivity.
Qed.
Lemma Kp_scale fuel : baw_Kp fuel o' s = rmap (Rmult c) (baw_Kp fuel o s).
Proof.
  unfold baw_Kp. rewrite seed_p_scale, rhs_p_scale. destruct (baw_rhs_p o s (baw_seed_p o s)) as [Rh|]; cbn [rmap bind]; [|reflexivity]. rewrite bi_p_scale.
  set (st := (baw_seed_p o s, sub (y_K o) (baw_seed_p o s), Rh, baw_bi_p o s (baw_seed_p o s))).
  replace (c * baw_seed_p o s, sub (y_K o') (c * baw_seed_p o s), c * Rh, baw_bi_p o s (baw_seed_p o s)) with (f st) by (unfold st, f; cbn [y_K o o' sub RNum]; rewrite Rmult_minus_distr_l; reflexivity).
  match goal with |- bind (while_ _ ?c2 ?b2 _) _ = rmap _ (bind (while_ _ ?c1 ?b1 _) _) => rewrite (while_map fuel c1 c2 b1 b2 f) end; [|intros [[[x L] Rh'] bi]; unfold f; cbn [y_K o' o]; exact (test_scale L Rh')|].
  2:{ intros [[[x L] Rh'] bi]. unfold f at 1. cbn [y_K o' o]. replace (div (add (sub (c * K) (c * Rh')) (mul bi (c * x))) (add (lit 1) bi)) with (c * ((div (add (sub K Rh') (mul bi x)) (add (lit 1) bi)) : R)) by (cbn [add sub mul div RNum]; unfold Rdiv; ring).
      rewrite rhs_p_scale. fold o. set (y := div _ _). destruct (baw_rhs_p o s y); cbn [rmap bind]; [|reflexivity]. rewrite bi_p_scale. unfold f. cbn [sub RNum]. now rewrite Rmult_minus_distr_l. }
  destruct (while_ _ _ _ st) as [[[[x L] Rh'] bi]|]; reflexivity.
Qed.
Lemma lt_scale x y : Rltb (c * x) (c * y) = Rltb x y.
Proof.
  destruct (Rlt_dec x y) as [H|H]; [rewrite !(proj2 (Rltb_true _ _)); auto; now apply Rmult_lt_compat_l|]. rewrite !(proj2 (Rltb_false _ _)); auto; [lra|]. apply Rmult_le_compat_l; lra.
Qed.
End Sig.
Lemma call_scale fuel sg : baw_call fuel (mkAmer (c * S) (c * K) t r b sg) = rmap (Rmult c) (baw_call fuel (mkAmer S K t r b sg)).
Proof.
  unfold baw_call. cbn [y_b y_r y_S y_K y_t y_sigma]. rewrite gbs_c_scale. destruct (leb r b); [reflexivity|]. destruct sg as [s|]; [|reflexivity]. cbn [need of_opt bind]. rewrite Kc_scale.
  destruct (baw_Kc fuel (mkAmer S K t r b (Some s)) s) as [x|]; cbn [rmap bind]; [|reflexivity]. rewrite d1_scale. cbn [ltb RNum]. rewrite lt_scale. destruct (Rltb S x).
  - destruct (gbs_c S K t r b (Some s)); cbn [rmap bind]; [|reflexivity]. cbn [add sub mul div lit powr RNum]. rewrite cquo. f_equal.
    change (baw_carry (mkAmer (c * S) (c * K) t r b (Some s))) with (baw_carry (mkAmer S K t r b (Some s))). change (baw_Q2 (mkAmer (c * S) (c * K) t r b (Some s)) s) with (baw_Q2 (mkAmer S K t r b (Some s)) s). unfold Rdiv. ring.
  - cbn [rmap sub RNum]. f_equal. ring.
Qed.
Lemma put_scale fuel sg : baw_put fuel (mkAmer (c * S) (c * K) t r b sg) = rmap (Rmult c) (baw_put fuel (mkAmer S K t r b sg)).
Proof.
  unfold baw_put. cbn [y_b y_r y_S y_K y_t y_sigma]. rewrite gbs_p_scale. destruct sg as [s|]; [|reflexivity]. cbn [need of_opt bind]. rewrite Kp_scale.
  destruct (baw_Kp fuel (mkAmer S K t r b (Some s)) s) as [x|]; cbn [rmap bind]; [|reflexivity]. rewrite d1_scale. cbn [ltb RNum]. rewrite lt_scale. destruct (Rltb x S).
  - destruct (gbs_p S K t r b (Some s)); cbn [rmap bind]; [|reflexivity]. cbn [add sub mul div opp lit powr RNum]. rewrite cquo. f_equal.
    change (baw_carry (mkAmer (c * S) (c * K) t r b (Some s))) with (baw_carry (mkAmer S K t r b (Some s))). change (baw_Q1 (mkAmer (c * S) (c * K) t r b (Some s)) s) with (baw_Q1 (mkAmer S K t r b (Some s)) s). unfold Rdiv. ring.
  - cbn [rmap sub RNum]. f_equal. ring.
Qed.
End Scale.

(*@ C43_scale | BAW prices do not depend on the unit of money: scaling spot and strike by c > 0 takes the search through the same number of steps, so that with any iteration budget the prices exist for both options or for neither (with the same exception) and differ by the factor c. Rates, maturity and volatility are arbitrary, missing volatility included. *)
Lemma baw_scale : forall (S K t r b c : R) (sigma : option R) (fuel : nat), 0 < K -> 0 < c ->
  match baw_call fuel (mkAmer S K t r b sigma) with
  | Ok v => baw_call fuel (mkAmer (c * S) (c * K) t r b sigma) = Ok (c * v)
  | Err e => baw_call fuel (mkAmer (c * S) (c * K) t r b sigma) = Err e end /\
  match baw_put fuel (mkAmer S K t r b sigma) with
  | Ok v => baw_put fuel (mkAmer (c * S) (c * K) t r b sigma) = Ok (c * v)
  | Err e => baw_put fuel (mkAmer (c * S) (c * K) t r b sigma) = Err e end.
Proof.
  intros S K t r b c sg fuel HK Hc. rewrite call_scale, put_scale by assumption. split; [destruct (baw_call _ _)|destruct (baw_put _ _)]; reflexivity.
Qed.
