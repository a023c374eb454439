(** Heston-Nandi: the closed form is the characteristic function of the GARCH process. *)
From Coq Require Import Reals ZArith QArith Qreals Lra Lia.
From Coquelicot Require Import Coquelicot.
From Coq Require Import List Bool.
From Verif Require Import Num Py MAmerican MMonte MHeston SMonte SHeston PCnd PGauss PMonte4 PCplx PHnGauss.
Import ListNotations.
Open Scope R_scope.
Open Scope C_scope.

(* ------------------------------------------------------------------ *)
(** * Improper integrals and means *)
Definition gint (f : R -> R) (v : R) : Prop :=
  forall eps, (0 < eps)%R -> exists M, forall a b, (a < - M)%R -> (M < b)%R -> exists I0, is_RInt f a b I0 /\ (Rabs (I0 - v) < eps)%R.
Lemma gint_gen f v : gint f v <-> is_RInt_gen f (Rbar_locally m_infty) (Rbar_locally p_infty) v.
Proof.
  split.
  - intros H P [eps HP]. destruct (H eps (cond_pos eps)) as (M & HM).
    apply (Filter_prod _ _ _ (fun a => a < - M)%R (fun c => M < c)%R).
    + exists (- M)%R. intros; assumption.
    + exists M. intros; assumption.
    + intros a c Ha Hc. cbn [fst snd]. destruct (HM a c Ha Hc) as (I0 & H1 & H2). exists I0. split; [exact H1|]. apply HP. exact H2.
  - intros H eps He. specialize (H (ball v (mkposreal eps He))). destruct H as [P Q [M1 H1] [M2 H2] HPQ].
    { exists (mkposreal eps He). intros y Hy. exact Hy. }
    exists (Rmax (- M1) M2). intros a b Ha Hb. pose proof (Rmax_l (- M1) M2). pose proof (Rmax_r (- M1) M2).
    destruct (HPQ a b) as (I0 & X1 & X2); [apply H1; lra|apply H2; lra|]. exists I0. split; [exact X1|exact X2].
Qed.
Lemma is_mean_gint f v : is_mean f v <-> gint (fun z => f z * npdf z)%R v.
Proof. unfold is_mean. symmetry. apply gint_gen. Qed.
Lemma cgint_re f v : cgint f v -> gint (fun z => Re (f z)) (Re v).
Proof.
  intros H eps He. destruct (H eps He) as (M & HM). exists M. intros a b Ha Hb. destruct (HM a b Ha Hb) as (I0 & [H1 _] & H2). exists (Re I0). split; [exact H1|].
  eapply Rle_lt_trans; [|exact H2]. apply (Re_le_Cmod (I0 - v)).
Qed.
Lemma cgint_im f v : cgint f v -> gint (fun z => Im (f z)) (Im v).
Proof.
  intros H eps He. destruct (H eps He) as (M & HM). exists M. intros a b Ha Hb. destruct (HM a b Ha Hb) as (I0 & [_ H1] & H2). exists (Im I0). split; [exact H1|].
  eapply Rle_lt_trans; [|exact H2]. apply (Im_le_Cmod (I0 - v)).
Qed.
Lemma gint_ext f g v : (forall z, f z = g z) -> gint f v -> gint g v.
Proof. intros E H eps He. destruct (H eps He) as (M & HM). exists M. intros a b Ha Hb. destruct (HM a b Ha Hb) as (I0 & H1 & H2). exists I0. split; [|exact H2]. eapply is_RInt_ext; [|exact H1]. intros; apply E. Qed.
Lemma is_mean_ext f g v : (forall z, f z = g z) -> is_mean f v -> is_mean g v.
Proof. rewrite !is_mean_gint. intro E. apply gint_ext. intro z. now rewrite E. Qed.
Lemma gint_unique f v w : gint f v -> gint f w -> v = w.
Proof.
  intros H1 H2. apply Rminus_diag_uniq. apply Rabs_eq_0. apply Rle_antisym; [|apply Rabs_pos]. apply le_epsilon. intros eps He.
  destruct (H1 (eps / 2)%R ltac:(lra)) as (M1 & X1). destruct (H2 (eps / 2)%R ltac:(lra)) as (M2 & X2).
  pose proof (Rmax_l M1 M2). pose proof (Rmax_r M1 M2). set (M := Rmax M1 M2) in *.
  destruct (X1 (- M - 1) (M + 1))%R as (I1 & A1 & B1); [lra|lra|]. destruct (X2 (- M - 1) (M + 1))%R as (I2 & A2 & B2); [lra|lra|].
  assert (E : I1 = I2). { rewrite <- (is_RInt_unique (V := R_CompleteNormedModule) _ _ _ _ A1). exact (is_RInt_unique (V := R_CompleteNormedModule) _ _ _ _ A2). }
  subst I2. replace (v - w)%R with ((I1 - w) - (I1 - v))%R by ring. eapply Rle_trans; [apply Rabs_triang|]. rewrite Rabs_Ropp. lra.
Qed.
Lemma is_mean_unique f v w : is_mean f v -> is_mean f w -> v = w.
Proof. rewrite !is_mean_gint. apply gint_unique. Qed.
Lemma cgint_scal c f v : cgint f v -> cgint (fun z => c * f z) (c * v).
Proof.
  intros H eps He. destruct (H (eps / (Cmod c + 1))%R) as (M & HM). { apply Rdiv_lt_0_compat; [lra|]. generalize (Cmod_ge_0 c). lra. }
  exists M. intros a b Ha Hb. destruct (HM a b Ha Hb) as (I0 & H1 & H2). exists (c * I0). split; [now apply cint_scal|].
  replace (c * I0 - c * v) with (c * (I0 - v)) by ring. rewrite Cmod_mult. pose proof (Cmod_ge_0 c). pose proof (Cmod_ge_0 (I0 - v)).
  apply Rle_lt_trans with ((Cmod c) * (eps / (Cmod c + 1)))%R; [apply Rmult_le_compat_l; lra|].
  apply Rmult_lt_reg_r with (Cmod c + 1)%R; [lra|]. replace (Cmod c * (eps / (Cmod c + 1)) * (Cmod c + 1))%R with (Cmod c * eps)%R by (field; lra). nra.
Qed.
Lemma cgint_ext f g v : (forall z, f z = g z) -> cgint f v -> cgint g v.
Proof. intros E H eps He. destruct (H eps He) as (M & HM). exists M. intros a b Ha Hb. destruct (HM a b Ha Hb) as (I0 & H1 & H2). exists I0. split; [|exact H2]. eapply cint_ext; eassumption. Qed.

(** complex means *)
Definition is_cexpect (n : nat) (f : list R -> C) (v : C) : Prop := is_expect n (fun zs => Re (f zs)) (Re v) /\ is_expect n (fun zs => Im (f zs)) (Im v).
Lemma is_expect_ext n : forall f g v, (forall zs, length zs = n -> f zs = g zs) -> is_expect n f v -> is_expect n g v.
Proof.
  induction n as [|n IH]; cbn; intros f g v E.
  - intro H. now rewrite <- E.
  - intros (h & H1 & H2). exists h. split; [|exact H2]. intro z. eapply IH; [|apply H1]. intros zs Hz. apply E. cbn. now rewrite Hz.
Qed.
Lemma Re_scalr z (x : R) : Re (z * x) = (Re z * x)%R. Proof. destruct z. cbn. ring. Qed.
Lemma Im_scalr z (x : R) : Im (z * x) = (Im z * x)%R. Proof. destruct z. cbn. ring. Qed.
Lemma is_cexpect_step n (f : list R -> C) (g : R -> C) v :
  (forall z, is_cexpect n (fun zs => f (z :: zs)) (g z)) -> cgint (fun z => g z * npdf z) v -> is_cexpect (S n) f v.
Proof.
  intros H1 H2. split; cbn.
  - exists (fun z => Re (g z)). split; [intro z; apply (proj1 (H1 z))|]. apply is_mean_gint. eapply gint_ext; [|apply cgint_re, H2]. intro z. apply Re_scalr.
  - exists (fun z => Im (g z)). split; [intro z; apply (proj2 (H1 z))|]. apply is_mean_gint. eapply gint_ext; [|apply cgint_im, H2]. intro z. apply Im_scalr.
Qed.

(* ------------------------------------------------------------------ *)
(** * The recursion *)
Lemma cmul_C (z w : cx R) : cmul z w = z * w. Proof. reflexivity. Qed.
Lemma cre_C (x : R) : cre x = RtoC x. Proof. unfold cre. apply C_ext; cbn; toR; lra. Qed.
Lemma cscal_C (x : R) (z : cx R) : cscal x z = x * z. Proof. unfold cscal. apply C_ext; unfold re, im, Re, Im; toR; cbn; ring. Qed.
Lemma cdivr_C (z : cx R) (x : R) : x <> 0%R -> cdivr z x = z / x.
Proof. intro Hx. unfold cdivr. apply C_ext; unfold re, im, Re, Im; toR; cbn; field; exact Hx. Qed.
Lemma cdiv_C (z w : cx R) : w <> 0 :> C -> cdiv z w = z / w.
Proof.
  intro Hw. assert (Hd : (fst w * fst w + snd w * snd w <> 0)%R). { intro E. apply Hw. apply C_ext; unfold Re, Im; cbn; nra. }
  unfold cdiv. apply C_ext; unfold re, im, Re, Im; toR; cbn; field; repeat split; intro E; apply Hd; cbn in E; lra.
Qed.
Lemma cexp_C (z : cx R) : cexp z = Cexp z. Proof. reflexivity. Qed.
Lemma clog_C (z : cx R) : (0 < fst z)%R -> clog z = Cln z.
Proof.
  intro Hz. unfold clog, Cln, carg, re, im, Re, Im. toR. match goal with |- context [Rltb ?x ?y] => replace (Rltb x y) with true by (symmetry; apply Rltb_true; lra) end. reflexivity.
Qed.

Lemma lit2nz : (lit 2 : R) <> 0%R. Proof. cbn [lit RNum]. unfold Q2R. cbn. lra. Qed.

Ltac toC := repeat match goal with
  | |- context [@cadd R RNum ?z ?w] => change (@cadd R RNum z w) with (Cplus z w)
  | |- context [@csub R RNum ?z ?w] => change (@csub R RNum z w) with (Cminus z w)
  | |- context [@cmul R RNum ?z ?w] => change (@cmul R RNum z w) with (Cmult z w)
  | |- context [@cexp R RNum ?z] => change (@cexp R RNum z) with (Cexp z)
  | |- context [@cre R RNum ?z] => rewrite (cre_C z)
  | |- context [@cscal R RNum ?x ?z] => rewrite (cscal_C x z)
  | |- context [@cdivr R RNum ?z (lit 2)] => rewrite (cdivr_C z (lit 2) lit2nz)
  end.

Section Rec.
Variables omega alpha beta g r : R.
Hypothesis Ha : (0 <= alpha)%R.
Hypothesis Hb : (0 <= beta)%R.
Hypothesis Ho : (0 <= omega)%R.
Variable cphi : C.
Hypothesis Hx : (0 <= Re cphi <= 1)%R.

Definition A_ (n : nat) : C := fst (hn_ab omega alpha beta g (- (1) / 2)%R r cphi n).
Definition B_ (n : nat) : C := snd (hn_ab omega alpha beta g (- (1) / 2)%R r cphi n).
Definition p_ (n : nat) : C := 1 - 2 * (alpha * B_ n).
Lemma A_0 : A_ 0 = r * cphi. Proof. unfold A_. cbn [hn_ab fst]. apply cscal_C. Qed.
Lemma B_0 : B_ 0 = - cphi / 2 + cphi * cphi / 2.
Proof. unfold B_. cbn [hn_ab snd]. toC. apply C_ext; toR; cbn; field. Qed.
Lemma re_quot (c y m n : R) : (1 <= m)%R -> (((c * c - y * y) * m + 2 * c * y * n) / (m * m + n * n) <= c * c)%R.
Proof.
  intro Hm. assert (Hd : (0 < m * m + n * n)%R) by nra. apply Rmult_le_reg_r with (m * m + n * n)%R; [exact Hd|].
  replace (((c * c - y * y) * m + 2 * c * y * n) / (m * m + n * n) * (m * m + n * n))%R with ((c * c - y * y) * m + 2 * c * y * n)%R by (field; lra).
  (* c^2 (m^2 - m + n^2) - 2 c y n + y^2 m >= 0 *)
  assert (0 <= (c * n - m * y) ^ 2)%R by apply pow2_ge_0.
  assert (0 <= m * m * (m - 1) + n * n * (m - 1))%R by nra.
  assert (X : (0 <= m * (c * c * (m * m - m + n * n) - 2 * c * y * n + y * y * m))%R).
  { replace (m * (c * c * (m * m - m + n * n) - 2 * c * y * n + y * y * m))%R with ((c * n - m * y) ^ 2 + c * c * (m * m * (m - 1) + n * n * (m - 1)))%R by ring. nra. }
  assert (0 <= c * c * (m * m - m + n * n) - 2 * c * y * n + y * y * m)%R. { destruct (Rle_lt_dec 0 (c * c * (m * m - m + n * n) - 2 * c * y * n + y * y * m)) as [|Hn]; [assumption|]. nra. }
  lra.
Qed.
Lemma re_quot2 (z P : C) : (1 <= Re P)%R -> (Re (z * z / (2 * P))%C <= / 2 * (Re z * Re z))%R.
Proof.
  intro Hp. assert (Hd : (Re P * Re P + Im P * Im P <> 0)%R) by nra. assert (Hq := re_quot (Re z) (Im z) (Re P) (Im P) Hp).
  replace (Re (z * z / (2 * P))%C) with (/ 2 * (((Re z * Re z - Im z * Im z) * Re P + 2 * Re z * Im z * Im P) / (Re P * Re P + Im P * Im P)))%R; [lra|].
  destruct z as [a b], P as [c d]. cbn in *. field. split; [|exact Hd]. intro E. apply Hd. nra.
Qed.
Lemma p_re n : (Re (B_ n) <= 0 -> 1 <= Re (p_ n))%R.
Proof. intro H. unfold p_. cbn. unfold Re, Im in *. nra. Qed.
Lemma p_nz n : (Re (B_ n) <= 0)%R -> p_ n <> 0.
Proof. intros H E. apply p_re in H. rewrite E in H. cbn in H. lra. Qed.
Lemma one_2ab n : csub (cre (lit 1)) (cscal (lit 2 * alpha)%num (snd (hn_ab omega alpha beta g (- (1) / 2)%R r cphi n))) = p_ n.
Proof. toC. unfold p_, B_. apply C_ext; toR; cbn; ring. Qed.
Lemma A_S n : (Re (B_ n) <= 0)%R -> A_ (S n) = A_ n + r * cphi + omega * B_ n - Cln (p_ n) / 2.
Proof.
  intro HB. unfold A_ at 1. cbn [hn_ab]. unfold hn_step. destruct (hn_ab omega alpha beta g (- (1) / 2)%R r cphi n) as [a b] eqn:E.
  assert (EA : A_ n = a) by (unfold A_; now rewrite E). assert (EB : B_ n = b) by (unfold B_; now rewrite E).
  assert (E1 := one_2ab n). rewrite E in E1. cbn [snd] in E1. rewrite E1. cbn [fst].
  rewrite clog_C by (generalize (p_re n HB); unfold Re; lra). toC. rewrite EA, EB.
  apply C_ext; toR; cbn; field.
Qed.
Lemma B_S n : (Re (B_ n) <= 0)%R -> B_ (S n) = (g - / 2) * cphi - g * g / 2 + beta * B_ n + (cphi - g) * (cphi - g) / (2 * p_ n).
Proof.
  intro HB. unfold B_ at 1. cbn [hn_ab]. unfold hn_step. destruct (hn_ab omega alpha beta g (- (1) / 2)%R r cphi n) as [a b] eqn:E.
  assert (EB : B_ n = b) by (unfold B_; now rewrite E).
  assert (E1 := one_2ab n). rewrite E in E1. cbn [snd] in E1. rewrite E1. cbn [snd].
  rewrite cdiv_C by now apply p_nz. toC. rewrite EB.
  assert (Hp := p_nz n HB). pose proof C2nz.
  replace ((cphi - g) * (cphi - g) / (2 * p_ n)) with (/ 2 * ((cphi - g) * (cphi - g)) / p_ n) by (field; split; assumption).
  assert (E5 : RtoC (lit 0.5) = / 2). { apply C_ext; toR; cbn; field. }
  assert (E6 : RtoC ((- (1) / 2)%R + g)%num = g - / 2). { apply C_ext; toR; cbn; field. }
  assert (E7 : RtoC (g ^ 2 / lit 2)%num = g * g / 2). { apply C_ext; toR; cbn; field. }
  rewrite E5, E6, E7. ring.
Qed.
Lemma B_neg n : (Re (B_ n) <= 0)%R.
Proof.
  induction n as [|n IH].
  - rewrite B_0. cbn. unfold Re, Im in *. nra.
  - rewrite (B_S n IH). assert (Hp := p_re n IH). assert (Hq := re_quot2 (cphi - g) (p_ n) Hp).
    set (Q := (cphi - g) * (cphi - g) / (2 * p_ n)) in *. clearbody Q. destruct Q as [q q']. set (B := B_ n) in *. clearbody B. cbn in *. unfold Re, Im in *. nra.
Qed.
(** one day: the Gaussian integral *)
Lemma hn_day n (h : R) : (0 <= h)%R ->
  cgint (fun z => Cexp (cphi * RtoC (r - h / 2 + sqrt h * z)%R + (A_ n + B_ n * RtoC (hn_next omega alpha beta g h z))) * npdf z)
        (Cexp (A_ (S n) + B_ (S n) * h)).
Proof.
  intro Hh. assert (HB := B_neg n). assert (Hp := p_nz n HB). set (q := sqrt h). assert (Hq : (q * q = h)%R) by now apply sqrt_sqrt.
  set (w := alpha * B_ n). set (u := cphi * q - 2 * (alpha * B_ n * (g * q))).
  set (c0 := cphi * RtoC (r - h / 2)%R + A_ n + B_ n * RtoC (omega + alpha * (g * g * h) + beta * h)%R).
  assert (Hw : (2 * Re w < 1)%R). { generalize (p_re n HB). unfold p_, w. cbn. unfold Re, Im. lra. }
  assert (HG := cgint_scal (Cexp c0) _ _ (cgauss u w Hw)). 
  assert (EV : Cexp c0 * Cexp (u * u / (2 * (1 - 2 * w)) - Cln (1 - 2 * w) / 2) = Cexp (A_ (S n) + B_ (S n) * h)).
  { rewrite <- Cexp_plus. f_equal. rewrite (A_S n HB), (B_S n HB). change (1 - 2 * w) with (p_ n).
    assert (Eu : u = q * ((cphi - g) + g * p_ n)). { unfold u, p_. ring. }
    rewrite Eu. unfold c0. rewrite !RtoC_plus, !RtoC_mult, RtoC_minus, RtoC_half.
    assert (EW : alpha * B_ n = (1 - p_ n) / 2). { unfold p_. pose proof C2nz. field. assumption. }
    assert (Ehq : RtoC h = q * q) by (rewrite <- RtoC_mult; f_equal; symmetry; exact Hq). rewrite Ehq.
    replace (B_ n * (omega + alpha * (g * g * (q * q)) + beta * (q * q))) with (omega * B_ n + (alpha * B_ n) * (g * g * (q * q)) + beta * (q * q) * B_ n) by ring.
    rewrite EW. pose proof C2nz as Hn2. clear - Hp Hn2. revert Hp. generalize (p_ n). intros P HP. rewrite C2 in *. field. split; assumption. }
  rewrite EV in HG. eapply cgint_ext; [|exact HG]. intro z. cbn beta. rewrite Cmult_assoc, <- Cexp_plus. f_equal. f_equal.
  unfold c0, u, w, hn_next. fold q. replace (g * g * h)%R with (g * g * (q * q))%R by (rewrite Hq; ring).
  replace (alpha * (z - g * q) ^ 2)%R with (alpha * ((z - g * q) * (z - g * q)))%R by ring.
  rewrite ?RtoC_plus, ?RtoC_mult, ?RtoC_minus, ?RtoC_mult, C2. ring.
Qed.
Lemma hn_next_nonneg h z : (0 <= h)%R -> (0 <= hn_next omega alpha beta g h z)%R.
Proof. intro Hh. unfold hn_next. assert (0 <= (z - g * sqrt h) ^ 2)%R by apply pow2_ge_0. nra. Qed.
Definition lret (h : R) (zs : list R) : R := total (hn_returns (- (1) / 2) omega alpha beta g r h zs).
Lemma hn_char n : forall h x, (0 <= h)%R -> is_cexpect (S n) (fun zs => Cexp (cphi * RtoC (x + lret h zs)%R)) (Cexp (cphi * x + (A_ n + B_ n * h))).
Proof.
  induction n as [|n IH]; intros h x Hh.
  - apply (is_cexpect_step 0 _ (fun z => Cexp (cphi * RtoC (x + (r - h / 2 + sqrt h * z))%R))).
    + intro z. assert (E : (x + lret h [z] = x + (r - h / 2 + sqrt h * z))%R) by (unfold lret, total; cbn; field). split; cbn [is_expect]; now rewrite E.
    + assert (HG := cgint_scal (Cexp (cphi * x + cphi * RtoC (r - h / 2)%R)) _ _ (cgauss (cphi * sqrt h) 0 ltac:(cbn; lra))).
      assert (EV : Cexp (cphi * x + cphi * RtoC (r - h / 2)%R) * Cexp (cphi * sqrt h * (cphi * sqrt h) / (2 * (1 - 2 * 0)) - Cln (1 - 2 * 0) / 2) = Cexp (cphi * x + (A_ 0 + B_ 0 * h))).
      { rewrite <- Cexp_plus. f_equal. rewrite A_0, B_0. replace (1 - 2 * 0) with (RtoC 1) by ring.
        assert (EL : Cln 1 = 0). { unfold Cln. apply C_ext; cbn; [replace (1 * (1 * 1) + 0 * (0 * 1))%R with 1%R by ring; now rewrite sqrt_1, ln_1|replace (0 / 1)%R with 0%R by field; apply atan_0]. }
        rewrite EL. assert (Ehq : RtoC h = sqrt h * sqrt h) by (rewrite <- RtoC_mult; f_equal; symmetry; now apply sqrt_sqrt).
        rewrite RtoC_minus, RtoC_half, Ehq. pose proof C2nz. field. assumption. }
      rewrite EV in HG. eapply cgint_ext; [|exact HG]. intro z. cbn beta. rewrite Cmult_assoc, <- Cexp_plus. f_equal. f_equal. rewrite !RtoC_plus, RtoC_mult. ring.
  - apply (is_cexpect_step (S n) _ (fun z => Cexp (cphi * RtoC (x + (r - h / 2 + sqrt h * z))%R + (A_ n + B_ n * RtoC (hn_next omega alpha beta g h z))))).
    + intro z. destruct (IH (hn_next omega alpha beta g h z) (x + (r - h / 2 + sqrt h * z))%R (hn_next_nonneg h z Hh)) as [I1 I2].
      split; (eapply is_expect_ext; [|eassumption]); intros zs _; cbn beta; (assert (E : (x + (r - h / 2 + sqrt h * z) + lret (hn_next omega alpha beta g h z) zs = x + lret h (z :: zs))%R) by (unfold lret, total; cbn; field)); now rewrite E.
    + assert (HG := cgint_scal (Cexp (cphi * x)) _ _ (hn_day n h Hh)). rewrite <- Cexp_plus in HG.
      eapply cgint_ext; [|exact HG]. intro z. cbn beta. rewrite Cmult_assoc, <- Cexp_plus. f_equal. f_equal. rewrite !RtoC_plus. ring.
Qed.
End Rec.
