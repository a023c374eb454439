(** The GARCH likelihood outside the stationary region, in extended reals (C54). *)
From Coq Require Import Reals ZArith QArith Qreals Lra Lia List Bool.
From Verif Require Import Num Py MAmerican MMonte MHeston SMonte SHeston PMonte PDegen PMonteX PHeston4.
Import ListNotations.
Open Scope R_scope.

Lemma xlogistic e : logistic (Fin e) = Fin (logistic e).
Proof.
  unfold logistic. rewrite (xlit 1). cbn [add sub mul div opp expn XNum Xopp Xexp Xadd]. generalize (exp_pos (- e)). intro.
  rewrite Xdiv_fin by lra. apply f_equal. cbn [add div expn opp lit RNum]. rewrite Q2R_int. reflexivity.
Qed.
Lemma xsum_nan l : In NaN l -> @suml X XNum l = NaN.
Proof.
  unfold suml. generalize (@lit X XNum 0). induction l as [|y l IH]; intros a Hin; [easy|]. cbn [fold_left]. destruct Hin as [->|Hin]; [|now apply IH].
  cbn [add XNum]. replace (Xadd a NaN) with NaN by (destruct a; reflexivity). clear. induction l as [|y l IH]; [reflexivity|]. cbn [fold_left]. exact IH.
Qed.
(*@ C54_nan | Where alpha gamma^2 + beta exceeds 1 the filter starts from a negative variance and the likelihood handed to the minimiser is nan, whatever the series *)
Lemma garch_nan : forall (x : list X) lamb e1 e2 e3 gamma rf symmetric fit,
  1 < to_unit e2 * gamma ^ 2 + to_unit e3 ->
  llhHNGarch [Fin lamb; Fin e1; Fin e2; Fin e3; Fin gamma] symmetric rf x = Ok fit ->
  f_llh fit = NaN /\ exists h z hs zs, f_h fit = Fin h :: hs /\ f_z fit = z :: zs /\ h < 0 /\ z = NaN.
Proof.
  rewrite <- ?logistic_unit.
  intros x lamb e1 e2 e3 gamma rf symmetric fit Hp H. unfold llhHNGarch, item in H. cbn [nth_error of_opt bind] in H. rewrite inverted_true, !xlogistic in H.
  pose proof (logistic_range e1). pose proof (logistic_range e2). pose proof (logistic_range e3). set (w := logistic e1) in *. set (a := logistic e2) in *. set (b := logistic e3) in *.
  destruct x as [|x0 x]; [discriminate|]. cbn [hn_filter bind] in H.
  assert (Hp' : 1 < a * gamma * gamma + b) by (replace (a * gamma * gamma) with (a * gamma ^ 2) by ring; exact Hp). clear Hp. clearbody w a b.
  set (h := (w + a) / (1 - a * gamma * gamma - b)).
  assert (Hh : h < 0). { assert (Hi : / (1 - a * gamma * gamma - b) < 0) by (apply Rinv_lt_0_compat; lra). unfold h, Rdiv. apply Ropp_lt_cancel. rewrite Ropp_0, Ropp_mult_distr_r. apply Rmult_lt_0_compat; lra. }
  assert (Eh : ((Fin w + Fin a) / (lit 1 - Fin a * Fin gamma * Fin gamma - Fin b))%num = Fin h).
  { rewrite (xlit 1). cbn [add sub mul div XNum Xadd Xsub Xmul Xopp]. rewrite Xdiv_fin by (lra). unfold h. apply f_equal. reflexivity. }
  rewrite Eh in H. assert (Es : sqrn (Fin h) = NaN) by (cbn; destruct (Rlt_dec h 0); [reflexivity|lra]). rewrite Es in H.
  assert (Ez : ((x0 - rf - Fin lamb * Fin h) / NaN)%num = NaN) by (cbn [div XNum]; destruct (x0 - rf - Fin lamb * Fin h)%num; reflexivity). rewrite Ez in H.
  apply Ok_inj in H. subst fit. cbn [f_llh f_h f_z map fst snd]. split; [|repeat eexists; exact Hh].
  rewrite Es. assert (En : logn (norm_pdf NaN / NaN)%num = (NaN : X)).
  { cbn [div XNum]. destruct (norm_pdf NaN); reflexivity. }
  rewrite En, xsum_nan by now left. reflexivity.
Qed.
