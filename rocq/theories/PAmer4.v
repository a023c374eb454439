(** Binomial recursions with early exercise converge when the steps have the right size and drift. *)
From Coq Require Import Reals Arith Lra Lia.
From Coquelicot Require Import Coquelicot.
From Verif Require Import Num Py SMonte PCnd PGauss SHeston PHeston PHeston2 PExpect PExpect2 PTrees3 PSpread3 PClt PAmer1 PAmer2 PAmer3.
Open Scope R_scope.

Lemma sqrt_ka k a : 0 <= a -> sqrt (INR k * a ^ 2) = sqrt (INR k) * a.
Proof. intro Ha. rewrite sqrt_mult by (try apply pos_INR; apply pow2_ge_0). now rewrite sqrt_pow2. Qed.

Lemma block_err c q f D k m a th T w BB M e1 e2 e3 e4 L o os dr :
  0 <= c -> 0 <= q -> 0 <= a -> 0 <= D -> 0 <= T -> Rabs th <= T -> Rabs (th * a) <= 1 -> lip c q f ->
  o = sqrt (INR k * a ^ 2) -> o <= BB -> 0 <= os <= BB -> 0 <= M -> is_mean (fun z => exp ((q * BB + 1) * Rabs z)) M ->
  0 <= e1 -> (forall c h, 0 <= c -> lip c (q + T) h -> Rabs (rw k a h 0 - Gs o h 0) <= e1 * c) ->
  exp (INR k * ((th * a) ^ 4 / 2)) - 1 <= e2 -> Rabs (INR k * (m + th * a ^ 2) - dr) <= e3 -> Rabs (o - os) <= e4 ->
  Rabs (INR k * m) <= L -> Rabs (INR k * (m + th * a ^ 2)) <= L -> Rabs dr <= L ->
  Rabs (it k (bstep D (tp th a) m a) f w - D ^ k * Gs os f (w + dr)) <= D ^ k * (c * exp (q * L) * (e1 * (2 + 2 * T) + e2 * M + 2 * e3 * M + 2 * e4 * M) * exp (q * Rabs w)).
Proof.
  intros Hc Hq Ha HD HT Hth Hx Hf Eo HoB Hos HM0 HM He1 Hrw He2 He3 He4 L1 L2 L3.
  assert (Ho : 0 <= o) by (rewrite Eo; apply sqrt_pos). assert (Ho2 : o ^ 2 = INR k * a ^ 2) by (rewrite Eo, pow2_sqrt; [reflexivity|apply Rmult_le_pos; [apply pos_INR|apply pow2_ge_0]]).
  rewrite it_tilt. set (w0 := w + INR k * m). set (h := fun u => exp (th * u) * f (w0 + u)).
  assert (Hh := lip_tilt c q f w0 th T Hc Hq Hth Hf). fold h in Hh.
  assert (EL : forall y, Rabs y <= L -> exp (q * Rabs (w + y)) <= exp (q * L) * exp (q * Rabs w)).
  { intros y Hy. rewrite <- exp_plus. apply exp_le. rewrite <- Rmult_plus_distr_l. pose proof (Rabs_triang w y). apply Rmult_le_compat_l; lra. }
  set (W := exp (q * L) * exp (q * Rabs w)). assert (HW : 0 < W) by (apply Rmult_lt_0_compat; apply exp_pos).
  assert (HcE : 0 <= c * exp (q * Rabs w0) * (2 + 2 * T)) by (apply Rmult_le_pos; [apply Rmult_le_pos; [exact Hc|apply Rlt_le, exp_pos]|lra]).
  assert (R1 : Rabs (rw k a h 0 - Gs o h 0) <= e1 * (c * W * (2 + 2 * T))).
  { eapply Rle_trans; [apply (Hrw _ _ HcE Hh)|]. apply Rmult_le_compat_l; [exact He1|]. apply Rmult_le_compat_r; [lra|].
    apply Rmult_le_compat_l; [exact Hc|]. apply (EL _ L1). }
  unfold h in R1 at 2. rewrite (Gs_tilt c q f o w0 th Hc Hq Ho Hf) in R1. fold h. set (w1 := w0 + th * o ^ 2) in *. set (Y := Gs o f w1) in *.
  assert (Ew1 : w1 = w + INR k * (m + th * a ^ 2)) by (unfold w1, w0; rewrite Ho2; ring).
  assert (Ew : exp (q * Rabs w1) <= W) by (rewrite Ew1; now apply EL). assert (Ew2 : exp (q * Rabs (w + dr)) <= W) by now apply EL.
  assert (HY : Rabs Y <= c * W * M).
  { eapply Rle_trans; [apply (Gs_bound c q f o w1 BB M Hc Hq (conj Ho HoB) Hf HM)|]. apply Rmult_le_compat_r; [exact HM0|]. apply Rmult_le_compat_l; [exact Hc|exact Ew]. }
  pose proof (ch_ge_1 (th * a)) as C1. set (C := ch (th * a)) in *.
  assert (E0 : exp (th ^ 2 * o ^ 2 / 2) = exp ((th * a) ^ 2 / 2) ^ k) by (rewrite exp_pow; f_equal; rewrite Ho2; field). rewrite E0 in R1.
  destruct (exp_over_ch (th * a) Hx) as [F1 F2]. fold C in F1, F2. set (phi := exp ((th * a) ^ 2 / 2) / C) in *.
  assert (P1 : 1 <= phi ^ k) by now apply pow_R1_Rle.
  assert (P2 : phi ^ k - 1 <= e2). { apply Rle_trans with (exp ((th * a) ^ 4 / 2) ^ k - 1); [|rewrite exp_pow; exact He2]. apply Rplus_le_compat_r. apply pow_incr. lra. }
  assert (Ck : 1 <= C ^ k) by now apply pow_R1_Rle. assert (Hphi : exp ((th * a) ^ 2 / 2) ^ k = phi ^ k * C ^ k) by (rewrite <- Rpow_mult_distr; f_equal; unfold phi; field; lra).
  rewrite Hphi in R1. assert (Dk : 0 <= D ^ k) by now apply pow_le.
  replace ((D / C) ^ k) with (D ^ k * / C ^ k) by (unfold Rdiv; rewrite Rpow_mult_distr, pow_inv; reflexivity).
  rewrite Rmult_assoc, <- Rmult_minus_distr_l, Rabs_mult, (Rabs_pos_eq (D ^ k)) by exact Dk. apply Rmult_le_compat_l; [exact Dk|].
  assert (R2 : Rabs (/ C ^ k * rw k a h 0 - phi ^ k * Y) <= e1 * (c * W * (2 + 2 * T))).
  { replace (/ C ^ k * rw k a h 0 - phi ^ k * Y) with (/ C ^ k * (rw k a h 0 - phi ^ k * C ^ k * Y)) by (field; lra). rewrite Rabs_mult. pose proof (Rabs_pos (rw k a h 0 - phi ^ k * C ^ k * Y)).
    assert (I1 : 0 < / C ^ k <= 1) by (split; [apply Rinv_0_lt_compat; lra|rewrite <- Rinv_1; apply Rinv_le_contravar; lra]). rewrite (Rabs_pos_eq (/ C ^ k)) by lra. nra. }
  assert (R3 : Rabs (phi ^ k * Y - Y) <= e2 * (c * W * M)).
  { replace (phi ^ k * Y - Y) with ((phi ^ k - 1) * Y) by ring. rewrite Rabs_mult, (Rabs_pos_eq (phi ^ k - 1)) by lra. apply Rmult_le_compat; [lra|apply Rabs_pos|exact P2|exact HY]. }
  assert (R4 : Rabs (Y - Gs o f (w + dr)) <= c * e3 * (2 * W) * M).
  { eapply Rle_trans; [apply (Gs_lip_loc c q f o w1 (w + dr) BB M Hc Hq (conj Ho HoB) Hf HM)|]. apply Rmult_le_compat_r; [exact HM0|].
    assert (Rabs (w1 - (w + dr)) <= e3) by (rewrite Ew1; replace (w + INR k * (m + th * a ^ 2) - (w + dr)) with (INR k * (m + th * a ^ 2) - dr) by ring; exact He3).
    pose proof (Rabs_pos (w1 - (w + dr))). pose proof (exp_pos (q * Rabs w1)). pose proof (exp_pos (q * Rabs (w + dr))). apply Rmult_le_compat; [nra|lra| |lra]. apply Rmult_le_compat_l; lra. }
  assert (R5 : Rabs (Gs o f (w + dr) - Gs os f (w + dr)) <= c * e4 * W * (2 * M)).
  { eapply Rle_trans; [apply (Gs_lip_sd c q f o os (w + dr) BB M Hc Hq (conj Ho HoB) Hos Hf HM)|]. apply Rmult_le_compat_r; [lra|]. pose proof (Rabs_pos (o - os)). pose proof (exp_pos (q * Rabs (w + dr))).
    apply Rmult_le_compat; [nra|lra| |exact Ew2]. apply Rmult_le_compat_l; lra. }
  replace (c * exp (q * L) * (e1 * (2 + 2 * T) + e2 * M + 2 * e3 * M + 2 * e4 * M) * exp (q * Rabs w)) with (e1 * (c * W * (2 + 2 * T)) + e2 * (c * W * M) + c * e3 * (2 * W) * M + c * e4 * W * (2 * M)) by (unfold W; ring).
  clear R1 HY Hrw. set (z1 := / C ^ k * rw k a h 0) in *. set (z2 := phi ^ k * Y) in *. set (z3 := Gs o f (w + dr)) in *. set (z4 := Gs os f (w + dr)) in *.
  apply Rabs_le_between in R2, R3, R4, R5. apply Rabs_le. split; lra.
Qed.

Lemma lip_max c c' q f h : lip c q f -> lip c' q h -> lip (c + c') q (fun x => Rmax (f x) (h x)).
Proof.
  intros [A L] [A' L']. split.
  - intro w. specialize (A w). specialize (A' w). assert (Rabs (Rmax (f w) (h w)) <= Rabs (f w) + Rabs (h w)); [|lra].
    unfold Rmax, Rabs. repeat match goal with |- context [Rle_dec ?a ?b] => destruct (Rle_dec a b) | |- context [Rcase_abs ?a] => destruct (Rcase_abs a) end; lra.
  - intros w w'. specialize (L w w'). specialize (L' w w'). assert (Rabs (Rmax (f w) (h w) - Rmax (f w') (h w')) <= Rabs (f w - f w') + Rabs (h w - h w')); [|lra].
    unfold Rmax, Rabs. repeat match goal with |- context [Rle_dec ?a ?b] => destruct (Rle_dec a b) | |- context [Rcase_abs ?a] => destruct (Rcase_abs a) end; lra.
Qed.
Lemma lip_weaken c c' q h : c <= c' -> lip c q h -> lip c' q h.
Proof.
  intros Hc [A L]. split.
  - intro w. eapply Rle_trans; [apply A|]. apply Rmult_le_compat_r; [apply Rlt_le, exp_pos|exact Hc].
  - intros w w'. eapply Rle_trans; [apply L|]. apply Rmult_le_compat_r; [pose proof (exp_pos (q * Rabs w)); pose proof (exp_pos (q * Rabs w')); lra|]. apply Rmult_le_compat_r; [apply Rabs_pos|exact Hc].
Qed.
Lemma sqrt_diff' u u' d : 0 <= u -> 0 <= u' -> Rabs (u - u') <= d -> Rabs (sqrt u - sqrt u') <= sqrt d.
Proof.
  intros Hu Hu' H. assert (Hd : 0 <= d) by (pose proof (Rabs_pos (u - u')); lra).
  assert (P : forall x y, 0 <= x -> 0 <= y -> y <= x + d -> sqrt y <= sqrt x + sqrt d).
  { intros x y Hx Hy Hxy. pose proof (sqrt_pos x). pose proof (sqrt_pos d). apply Rsqr_incr_0_var; [|lra]. rewrite !Rsqr_pow2. replace ((sqrt x + sqrt d) ^ 2) with (sqrt x ^ 2 + sqrt d ^ 2 + 2 * (sqrt x * sqrt d)) by ring. rewrite !pow2_sqrt by lra. nra. }
  apply Rabs_le_between in H. pose proof (P u u' Hu Hu' ltac:(lra)). pose proof (P u' u Hu' Hu ltac:(lra)). apply Rabs_le. lra.
Qed.

Section Lim.
Variables (q r nu s t Th : R) (a m th : nat -> R).
Hypotheses (Hq : 0 <= q) (Ht : 0 < t) (Hs : 0 <= s) (Ha0 : forall n, 0 <= a n) (HT0 : 0 <= Th).
Hypothesis Ha : is_lim_seq (fun n => sqrt (INR n) * a n) (s * sqrt t).
Hypothesis Hm : is_lim_seq (fun n => INR n * (m n + th n * a n ^ 2)) (nu * t).
Hypothesis Hth : forall n, Rabs (th n) <= Th.

Definition Tn (n : nat) : (R -> R) -> R -> R := bstep (exp (- r * (t / INR n))) (tp (th n) (a n)) (m n) (a n).
Definition Gt (u : R) (f : R -> R) (w : R) : R := exp (- r * u) * Gs (s * sqrt u) f (w + nu * u).

Lemma lim_eps (f : nat -> R) (l : R) : is_lim_seq f l -> forall e, 0 < e -> exists N, forall n, (N <= n)%nat -> Rabs (f n - l) <= e.
Proof. intros H e He. apply is_lim_seq_spec in H. destruct (H (mkposreal e He)) as [N HN]. exists N. intros n Hn. apply Rlt_le. apply (HN n Hn). Qed.

Let BB := s * sqrt t + 1.
Let L0 := Rabs (nu * t) + 1 + Th * BB ^ 2.
Lemma BB_pos : 0 < BB. Proof. unfold BB. pose proof (sqrt_pos t). nra. Qed.
Lemma sizes : exists N, forall n, (N <= n)%nat -> (0 < n)%nat /\ sqrt (INR n) * a n <= BB /\ INR n * a n ^ 2 <= BB ^ 2 /\ Rabs (INR n * m n) <= L0 /\ Rabs (INR n * (m n + th n * a n ^ 2)) <= L0.
Proof.
  destruct (lim_eps _ _ Ha 1 Rlt_0_1) as (N1 & H1). destruct (lim_eps _ _ Hm 1 Rlt_0_1) as (N2 & H2). exists (S (N1 + N2)). intros n Hn. specialize (H1 n ltac:(lia)). specialize (H2 n ltac:(lia)).
  pose proof BB_pos as HB. assert (A1 : sqrt (INR n) * a n <= BB) by (apply Rabs_le_between in H1; unfold BB; lra). pose proof (pos_INR n) as Hn0.
  assert (A2 : INR n * a n ^ 2 <= BB ^ 2). { replace (INR n * a n ^ 2) with ((sqrt (INR n) * a n) ^ 2) by (rewrite Rpow_mult_distr, pow2_sqrt by exact Hn0; reflexivity). apply pow_incr. split; [|exact A1]. apply Rmult_le_pos; [apply sqrt_pos|apply Ha0]. }
  pose proof (pow2_ge_0 (a n)) as Ha2. pose proof (Hth n) as Hthn. assert (A4 : Rabs (INR n * (m n + th n * a n ^ 2)) <= Rabs (nu * t) + 1).
  { replace (INR n * (m n + th n * a n ^ 2)) with ((INR n * (m n + th n * a n ^ 2) - nu * t) + nu * t) by ring. eapply Rle_trans; [apply Rabs_triang|]. lra. }
  assert (A5 : Rabs (th n * (INR n * a n ^ 2)) <= Th * BB ^ 2). { rewrite Rabs_mult, (Rabs_pos_eq (INR n * a n ^ 2)) by nra. apply Rmult_le_compat; [apply Rabs_pos|nra|exact Hthn|exact A2]. }
  split; [lia|]. repeat split; try assumption; unfold L0.
  - replace (INR n * m n) with (INR n * (m n + th n * a n ^ 2) - th n * (INR n * a n ^ 2)) by ring. unfold Rminus at 1. eapply Rle_trans; [apply Rabs_triang|]. rewrite Rabs_Ropp. lra.
  - pose proof (pow2_ge_0 BB). nra.
Qed.
Lemma a_small d : 0 < d -> exists N, forall n, (N <= n)%nat -> a n <= d.
Proof.
  intro Hd. destruct sizes as (N1 & H1). pose proof BB_pos as HB. destruct (nfloor_ex ((BB / d) ^ 2)) as (N & _ & HN); [apply pow2_ge_0|]. exists (S (N + N1)). intros n Hn. destruct (H1 n ltac:(lia)) as (Hn0 & A1 & _).
  assert (HI : (BB / d) ^ 2 <= INR n). { apply Rlt_le. eapply Rlt_le_trans; [exact HN|]. rewrite <- S_INR. apply le_INR. lia. }
  assert (Hsq : BB / d <= sqrt (INR n)). { rewrite <- (sqrt_pow2 (BB / d)) by (apply Rlt_le, Rdiv_lt_0_compat; lra). now apply sqrt_le_1_alt. }
  assert (0 < BB / d) by (apply Rdiv_lt_0_compat; lra). pose proof (Ha0 n). apply Rmult_le_reg_l with (BB / d); [lra|]. replace (BB / d * d) with BB by (field; lra). eapply Rle_trans; [|exact A1]. apply Rmult_le_compat_r; lra.
Qed.

Lemma kn k n : (k <= n)%nat -> (0 < n)%nat -> 0 <= INR k / INR n <= 1.
Proof.
  intros Hk Hn. assert (0 < INR n) by now apply lt_0_INR. assert (INR k <= INR n) by now apply le_INR. pose proof (pos_INR k). split; [apply Rmult_le_pos; [lra|apply Rlt_le, Rinv_0_lt_compat; lra]|].
  apply Rmult_le_reg_r with (INR n); [lra|]. unfold Rdiv. rewrite Rmult_assoc, Rinv_l by lra. lra.
Qed.
Lemma scale_abs k n x B0 : (k <= n)%nat -> (0 < n)%nat -> Rabs (INR n * x) <= B0 -> Rabs (INR k * x) <= B0.
Proof.
  intros Hk Hn H. destruct (kn k n Hk Hn) as [K1 K2]. assert (0 < INR n) by now apply lt_0_INR. replace (INR k * x) with (INR k / INR n * (INR n * x)) by (field; lra). rewrite Rabs_mult, (Rabs_pos_eq (INR k / INR n)) by exact K1.
  pose proof (Rabs_pos (INR n * x)). nra.
Qed.

Lemma walk_clt eps : 0 < eps -> exists N, forall n, (N <= n)%nat -> forall k, (k <= n)%nat -> forall c f, 0 <= c -> lip c q f -> forall w,
  Rabs (it k (Tn n) f w - Gt (INR k * (t / INR n)) f w) <= eps * c * vq q w.
Proof.
  intro He. pose proof BB_pos as HB. set (L := L0 + Rabs (nu * t)). assert (HqB : 0 <= q * BB + 1) by nra.
  destruct (mean_wt (q * BB + 1) HqB) as (M & HM0 & HM). set (DD := exp (Rabs r * t)). assert (HDD : 0 < DD) by apply exp_pos. set (EL := exp (q * L)). assert (HEL : 0 < EL) by apply exp_pos.
  set (K := DD * EL * (2 + 2 * Th + 5 * M + 1)). assert (HK : 0 < K) by (apply Rmult_lt_0_compat; [nra|lra]). set (e := eps / K). assert (He1 : 0 < e) by now apply Rdiv_lt_0_compat.
  destruct (clt_gen (q + Th) BB ltac:(lra) ltac:(lra) e He1) as (d & Hd & C1).
  (* the factor *)
  assert (F : exists dl, 0 < dl /\ forall y, 0 <= y <= dl -> exp y - 1 <= e).
  { exists (ln (1 + e)). assert (0 < ln (1 + e)) by (rewrite <- ln_1; apply ln_increasing; lra). split; [assumption|]. intros y Hy. assert (exp y <= 1 + e) by (rewrite <- (exp_ln (1 + e)) by lra; apply exp_le; lra). lra. }
  destruct F as (dl & Hdl & F). set (T4 := Th ^ 4 * BB ^ 2 + 1). assert (HT4 : 0 < T4) by (unfold T4; assert (0 <= Th ^ 4) by (apply pow_le; lra); nra).
  destruct sizes as (N1 & H1). destruct (a_small d Hd) as (N2 & H2). destruct (a_small (Rmin 1 (dl / T4))) as (N3 & H3); [apply Rmin_glb_lt; [lra|now apply Rdiv_lt_0_compat]|].
  destruct (a_small (/ (Th + 1))) as (N4 & H4); [apply Rinv_0_lt_compat; lra|]. destruct (lim_eps _ _ Hm e He1) as (N5 & H5). destruct (lim_eps _ _ Ha e He1) as (N6 & H6).
  exists (N1 + N2 + N3 + N4 + N5 + N6)%nat. intros n Hn k Hk c f Hc Hf w. destruct (H1 n ltac:(lia)) as (Hn0 & A1 & A2 & A3 & A4). specialize (H2 n ltac:(lia)). specialize (H3 n ltac:(lia)). specialize (H4 n ltac:(lia)). specialize (H5 n ltac:(lia)). specialize (H6 n ltac:(lia)).
  pose proof (Ha0 n) as Han. pose proof (Hth n) as Hthn. assert (HI : 0 < INR n) by now apply lt_0_INR. pose proof (pos_INR k) as Hk0. assert (HkI : INR k <= INR n) by now apply le_INR. destruct (kn k n Hk Hn0) as [K1 K2]. pose proof (pow2_ge_0 (a n)) as Ha2.
  set (u := INR k * (t / INR n)). assert (Eu : u = INR k / INR n * t) by (unfold u; field; lra). assert (Hu : 0 <= u <= t) by (rewrite Eu; split; nra).
  assert (Hsk : sqrt u = sqrt (INR k / INR n) * sqrt t) by (rewrite Eu; apply sqrt_mult; lra). assert (Hsk1 : 0 <= sqrt (INR k / INR n) <= 1) by (split; [apply sqrt_pos|rewrite <- sqrt_1; now apply sqrt_le_1_alt]).
  assert (Hka : INR k * a n ^ 2 <= BB ^ 2) by nra. assert (Eso : sqrt (INR k * a n ^ 2) = sqrt (INR k / INR n) * (sqrt (INR n) * a n)).
  { rewrite sqrt_ka by exact Han. rewrite <- Rmult_assoc, <- sqrt_mult by lra. do 2 f_equal. field. lra. }
  pose proof (sqrt_pos t) as Hst. assert (Hsn : 0 <= sqrt (INR n) * a n) by (apply Rmult_le_pos; [apply sqrt_pos|exact Han]).
  assert (BE := block_err c q f (exp (- r * (t / INR n))) k (m n) (a n) (th n) Th w BB M e e e e L (sqrt (INR k * a n ^ 2)) (s * sqrt u) (nu * u)).
  unfold Gt, Tn. fold u. replace (exp (- r * u)) with (exp (- r * (t / INR n)) ^ k) by (rewrite exp_pow; f_equal; unfold u; ring).
  eapply Rle_trans; [apply BE; clear BE|].
  - exact Hc. - exact Hq. - exact Han. - apply Rlt_le, exp_pos. - exact HT0. - exact Hthn.
  - rewrite Rabs_mult, (Rabs_pos_eq (a n)) by exact Han. apply Rle_trans with ((Th + 1) * / (Th + 1)); [|right; field; lra]. pose proof (Rabs_pos (th n)). apply Rmult_le_compat; lra.
  - exact Hf. - reflexivity.
  - rewrite Eso. nra.
  - rewrite Hsk. split; [apply Rmult_le_pos; [exact Hs|apply Rmult_le_pos; lra]|]. unfold BB. assert (s * sqrt t * sqrt (INR k / INR n) <= s * sqrt t * 1) by (apply Rmult_le_compat_l; nra). lra.
  - exact HM0. - exact HM. - lra.
  - intros c' h Hc' Hh. apply C1; try assumption. lra.
  - apply F. assert (X4 : 0 <= (th n * a n) ^ 4 <= Th ^ 4 * a n ^ 4).
    { replace ((th n * a n) ^ 4) with (th n ^ 4 * a n ^ 4) by ring. assert (P4 : 0 <= th n ^ 4 <= Th ^ 4). { replace (th n ^ 4) with (Rabs (th n) ^ 4) by (rewrite RPow_abs; apply Rabs_pos_eq; replace (th n ^ 4) with ((th n ^ 2) ^ 2) by ring; apply pow2_ge_0). split; [apply pow_le, Rabs_pos|apply pow_incr; split; [apply Rabs_pos|exact Hthn]]. }
      assert (0 <= a n ^ 4) by now apply pow_le. split; nra. }
    split; [nra|]. assert (a n <= 1) by (eapply Rle_trans; [exact H3|apply Rmin_l]). assert (A6 : a n <= dl / T4) by (eapply Rle_trans; [exact H3|apply Rmin_r]).
    assert (a n ^ 2 <= a n) by nra. apply Rle_trans with (INR k * (Th ^ 4 * a n ^ 4)); [nra|]. replace (INR k * (Th ^ 4 * a n ^ 4)) with (Th ^ 4 * (INR k * a n ^ 2) * a n ^ 2) by ring.
    assert (HT4p : 0 <= Th ^ 4) by (apply pow_le; lra). apply Rle_trans with (T4 * (dl / T4)); [|right; field; lra]. apply Rmult_le_compat; [|nra| |lra].
    + apply Rmult_le_pos; [exact HT4p|nra].
    + unfold T4. nra.
  - replace (INR k * (m n + th n * a n ^ 2) - nu * u) with (INR k * ((m n + th n * a n ^ 2) - nu * t / INR n)) by (rewrite Eu; field; lra). apply (scale_abs k n _ _ Hk Hn0).
    replace (INR n * ((m n + th n * a n ^ 2) - nu * t / INR n)) with (INR n * (m n + th n * a n ^ 2) - nu * t) by (field; lra). exact H5.
  - rewrite Eso, Hsk. replace (sqrt (INR k / INR n) * (sqrt (INR n) * a n) - s * (sqrt (INR k / INR n) * sqrt t)) with (sqrt (INR k / INR n) * (sqrt (INR n) * a n - s * sqrt t)) by ring.
    rewrite Rabs_mult, (Rabs_pos_eq (sqrt (INR k / INR n))) by lra. pose proof (Rabs_pos (sqrt (INR n) * a n - s * sqrt t)). nra.
  - unfold L. pose proof (Rabs_pos (nu * t)). pose proof (scale_abs k n _ _ Hk Hn0 A3). lra.
  - unfold L. pose proof (Rabs_pos (nu * t)). pose proof (scale_abs k n _ _ Hk Hn0 A4). lra.
  - unfold L. assert (0 <= L0) by (eapply Rle_trans; [apply Rabs_pos|exact A3]). rewrite Eu. replace (nu * (INR k / INR n * t)) with (INR k / INR n * (nu * t)) by ring. rewrite Rabs_mult, (Rabs_pos_eq (INR k / INR n)) by lra. pose proof (Rabs_pos (nu * t)). nra.
  - assert (HD : exp (- r * (t / INR n)) ^ k <= DD). { rewrite exp_pow. unfold DD. apply exp_le. replace (INR k * (- r * (t / INR n))) with (- r * u) by (unfold u; ring). pose proof (Rle_abs (- r)). rewrite Rabs_Ropp in H. pose proof (Rabs_pos r). nra. }
    pose proof (exp_abs_le q w Hq) as W. fold (vq q w) in W. pose proof (exp_pos (q * Rabs w)) as W0. pose proof (pow_lt _ k (exp_pos (- r * (t / INR n)))) as HD0. fold EL.
    set (S := e * (2 + 2 * Th) + e * M + 2 * e * M + 2 * e * M). assert (HS : 0 <= S) by (unfold S; nra). assert (HS2 : DD * EL * S <= eps).
    { apply Rle_trans with (e * K); [|right; unfold e; field; lra]. replace (DD * EL * S) with (e * (DD * EL * (2 + 2 * Th + 5 * M))) by (unfold S; ring). apply Rmult_le_compat_l; [lra|]. unfold K. apply Rmult_le_compat_l; [nra|lra]. }
    apply Rle_trans with (DD * (c * EL * S * vq q w)).
    + assert (0 <= c * EL * S) by (apply Rmult_le_pos; [nra|exact HS]). apply Rmult_le_compat; [lra|nra|exact HD|]. apply Rmult_le_compat_l; lra.
    + replace (DD * (c * EL * S * vq q w)) with (DD * EL * S * (c * vq q w)) by ring. replace (eps * c * vq q w) with (eps * (c * vq q w)) by ring. apply Rmult_le_compat_r; [|exact HS2]. pose proof (vq_pos q w). nra.
Qed.

Lemma Gt_0 f w : Gt 0 f w = f w.
Proof. unfold Gt. rewrite sqrt_0, !Rmult_0_r, exp_0, Rplus_0_r, Gs_0. ring. Qed.
Let LL := Rabs nu * t.
Lemma su_le u : 0 <= u <= t -> 0 <= s * sqrt u <= BB.
Proof. intro Hu. pose proof (sqrt_pos u). assert (sqrt u <= sqrt t) by (apply sqrt_le_1_alt; lra). unfold BB. nra. Qed.
Lemma nu_le u : 0 <= u <= t -> Rabs (nu * u) <= LL.
Proof. intro Hu. rewrite Rabs_mult, (Rabs_pos_eq u) by lra. unfold LL. pose proof (Rabs_pos nu). nra. Qed.
Lemma wt_le w y : Rabs y <= LL -> exp (q * Rabs (w + y)) <= exp (q * LL) * exp (q * Rabs w).
Proof. intro Hy. rewrite <- exp_plus. apply exp_le. rewrite <- Rmult_plus_distr_l. pose proof (Rabs_triang w y). apply Rmult_le_compat_l; lra. Qed.
Lemma disc_le u : 0 <= u <= t -> 0 < exp (- r * u) <= exp (Rabs r * t).
Proof. intro Hu. split; [apply exp_pos|]. apply exp_le. pose proof (Rle_abs (- r)). rewrite Rabs_Ropp in H. pose proof (Rabs_pos r). nra. Qed.

Lemma Gt_cls : exists CG, 0 <= CG /\ forall u, 0 <= u <= t -> forall c f, 0 <= c -> lip c q f -> lip (CG * c) q (Gt u f).
Proof.
  pose proof BB_pos as HB. assert (HqB : 0 <= q * BB + 1) by nra. destruct (mean_wt (q * BB + 1) HqB) as (M & HM0 & HM).
  set (DD := exp (Rabs r * t)). assert (HDD : 0 < DD) by apply exp_pos. set (EL := exp (q * LL)). assert (HEL : 0 < EL) by apply exp_pos. exists (DD * EL * M). split; [apply Rmult_le_pos; [nra|exact HM0]|].
  intros u Hu c f Hc Hf. destruct (disc_le u Hu) as [D0 D1]. fold DD in D1. pose proof (su_le u Hu) as So. pose proof (nu_le u Hu) as Nu. split.
  - intro w. unfold Gt. rewrite Rabs_mult, (Rabs_pos_eq (exp (- r * u))) by lra. replace (DD * EL * M * c * exp (q * Rabs w)) with (DD * (c * (EL * exp (q * Rabs w)) * M)) by ring.
    apply Rmult_le_compat; [lra|apply Rabs_pos|exact D1|]. eapply Rle_trans; [apply (Gs_bound c q f _ _ BB M Hc Hq So Hf HM)|]. apply Rmult_le_compat_r; [exact HM0|]. apply Rmult_le_compat_l; [exact Hc|]. now apply wt_le.
  - intros w w'. unfold Gt. rewrite <- Rmult_minus_distr_l, Rabs_mult, (Rabs_pos_eq (exp (- r * u))) by lra.
    replace (DD * EL * M * c * Rabs (w - w') * (exp (q * Rabs w) + exp (q * Rabs w'))) with (DD * (c * Rabs (w - w') * (EL * exp (q * Rabs w) + EL * exp (q * Rabs w')) * M)) by ring.
    apply Rmult_le_compat; [lra|apply Rabs_pos|exact D1|]. eapply Rle_trans; [apply (Gs_lip_loc c q f _ _ _ BB M Hc Hq So Hf HM)|]. apply Rmult_le_compat_r; [exact HM0|].
    replace (w + nu * u - (w' + nu * u)) with (w - w') by ring. apply Rmult_le_compat_l; [pose proof (Rabs_pos (w - w')); nra|]. apply Rplus_le_compat; now apply wt_le.
Qed.

Lemma Gt_mod eps : 0 < eps -> exists d, 0 < d /\ forall u u', 0 <= u <= t -> 0 <= u' <= t -> Rabs (u - u') <= d -> forall c f, 0 <= c -> lip c q f -> forall w,
  Rabs (Gt u f w - Gt u' f w) <= eps * c * vq q w.
Proof.
  intro He. pose proof BB_pos as HB. assert (HqB : 0 <= q * BB + 1) by nra. destruct (mean_wt (q * BB + 1) HqB) as (M & HM0 & HM).
  set (DD := exp (Rabs r * t)). assert (HDD : 0 < DD) by apply exp_pos. set (EL := exp (q * LL)). assert (HEL : 0 < EL) by apply exp_pos.
  pose proof (Rabs_pos r) as Hr0. pose proof (Rabs_pos nu) as Hnu0. set (K := DD * EL * M * (2 * Rabs r + 2 * Rabs nu + 2 * s) + 1). assert (HK : 0 < K). { unfold K. assert (0 <= DD * EL * M) by (apply Rmult_le_pos; nra). assert (0 <= DD * EL * M * (2 * Rabs r + 2 * Rabs nu + 2 * s)) by (apply Rmult_le_pos; lra). lra. }
  set (e := Rmin 1 (eps / K)). assert (He1 : 0 < e) by (apply Rmin_glb_lt; [lra|now apply Rdiv_lt_0_compat]). assert (HeK : e * K <= eps). { apply Rle_trans with (eps / K * K); [apply Rmult_le_compat_r; [lra|apply Rmin_r]|right; field; lra]. } assert (He2 : e <= 1) by apply Rmin_l.
  exists (e ^ 2). split; [nra|]. intros u u' Hu Hu' Huu c f Hc Hf w. assert (Huu1 : Rabs (u - u') <= e) by nra. pose proof (sqrt_diff' u u' _ (proj1 Hu) (proj1 Hu') Huu) as Hsq. rewrite sqrt_pow2 in Hsq by lra.
  destruct (disc_le u Hu) as [D0 D1]. destruct (disc_le u' Hu') as [D0' D1']. fold DD in D1, D1'. pose proof (su_le u Hu) as So. pose proof (nu_le u Hu) as Nu. pose proof (su_le u' Hu') as So'. pose proof (nu_le u' Hu') as Nu'.
  set (W := exp (q * Rabs w)). assert (HW : 0 < W) by apply exp_pos. pose proof (wt_le w _ Nu) as W1. pose proof (wt_le w _ Nu') as W2. fold EL W in W1, W2.
  assert (R1 : Rabs ((exp (- r * u) - exp (- r * u')) * Gs (s * sqrt u) f (w + nu * u)) <= Rabs r * e * (2 * DD) * (c * (EL * W) * M)).
  { rewrite Rabs_mult. apply Rmult_le_compat; [apply Rabs_pos|apply Rabs_pos| |].
    - eapply Rle_trans; [apply exp_lip|]. rewrite <- Rmult_minus_distr_l, Rabs_mult, Rabs_Ropp. pose proof (Rabs_pos (u - u')). apply Rmult_le_compat; [nra|lra| |lra]. apply Rmult_le_compat_l; lra.
    - eapply Rle_trans; [apply (Gs_bound c q f _ _ BB M Hc Hq So Hf HM)|]. apply Rmult_le_compat_r; [exact HM0|]. apply Rmult_le_compat_l; [exact Hc|exact W1]. }
  assert (R2 : Rabs (Gs (s * sqrt u) f (w + nu * u) - Gs (s * sqrt u) f (w + nu * u')) <= c * (Rabs nu * e) * (2 * (EL * W)) * M).
  { eapply Rle_trans; [apply (Gs_lip_loc c q f _ _ _ BB M Hc Hq So Hf HM)|]. apply Rmult_le_compat_r; [exact HM0|]. replace (w + nu * u - (w + nu * u')) with (nu * (u - u')) by ring. rewrite Rabs_mult.
    pose proof (Rabs_pos (u - u')). pose proof (exp_pos (q * Rabs (w + nu * u))). pose proof (exp_pos (q * Rabs (w + nu * u'))). apply Rmult_le_compat; [apply Rmult_le_pos; nra|lra| |lra]. apply Rmult_le_compat_l; [exact Hc|]. apply Rmult_le_compat_l; lra. }
  assert (R3 : Rabs (Gs (s * sqrt u) f (w + nu * u') - Gs (s * sqrt u') f (w + nu * u')) <= c * (s * e) * (EL * W) * (2 * M)).
  { eapply Rle_trans; [apply (Gs_lip_sd c q f _ _ _ BB M Hc Hq So So' Hf HM)|]. apply Rmult_le_compat_r; [lra|]. rewrite <- Rmult_minus_distr_l, Rabs_mult, (Rabs_pos_eq s) by exact Hs. pose proof (exp_pos (q * Rabs (w + nu * u'))). pose proof (Rabs_pos (sqrt u - sqrt u')).
    apply Rmult_le_compat; [apply Rmult_le_pos; nra|lra| |exact W2]. apply Rmult_le_compat_l; [exact Hc|]. apply Rmult_le_compat_l; lra. }
  assert (R4 : Rabs (exp (- r * u') * (Gs (s * sqrt u) f (w + nu * u) - Gs (s * sqrt u') f (w + nu * u'))) <= DD * (c * (Rabs nu * e) * (2 * (EL * W)) * M + c * (s * e) * (EL * W) * (2 * M))).
  { rewrite Rabs_mult, (Rabs_pos_eq (exp (- r * u'))) by lra. apply Rmult_le_compat; [lra|apply Rabs_pos|exact D1'|]. clear R1. apply Rabs_le_between in R2, R3. apply Rabs_le. split; lra. }
  unfold Gt. replace (exp (- r * u) * Gs (s * sqrt u) f (w + nu * u) - exp (- r * u') * Gs (s * sqrt u') f (w + nu * u'))
    with ((exp (- r * u) - exp (- r * u')) * Gs (s * sqrt u) f (w + nu * u) + exp (- r * u') * (Gs (s * sqrt u) f (w + nu * u) - Gs (s * sqrt u') f (w + nu * u'))) by ring.
  eapply Rle_trans; [apply Rabs_triang|]. eapply Rle_trans; [apply Rplus_le_compat; [exact R1|exact R4]|]. clear R1 R2 R3 R4.
  replace (Rabs r * e * (2 * DD) * (c * (EL * W) * M) + DD * (c * (Rabs nu * e) * (2 * (EL * W)) * M + c * (s * e) * (EL * W) * (2 * M))) with (e * (K - 1) * (c * W)) by (unfold K; ring).
  pose proof (exp_abs_le q w Hq) as Wv. fold (vq q w) W in Wv. replace (eps * c * vq q w) with (eps * (c * vq q w)) by ring. assert (0 <= K - 1). { unfold K. assert (0 <= DD * EL * M) by (apply Rmult_le_pos; nra). assert (0 <= DD * EL * M * (2 * Rabs r + 2 * Rabs nu + 2 * s)) by (apply Rmult_le_pos; lra). lra. }
  apply Rmult_le_compat; [nra|nra|lra|]. apply Rmult_le_compat_l; lra.
Qed.

Definition lamn (n : nat) : R := exp (Rabs r * (t / INR n) + q * Rabs (m n) + (Th + q) ^ 2 * a n ^ 2 / 2).
Lemma lamn_1 n : (0 < n)%nat -> 1 <= lamn n.
Proof.
  intro Hn. unfold lamn. rewrite <- exp_0. apply exp_le. assert (0 < INR n) by now apply lt_0_INR. assert (0 < t / INR n) by now apply Rdiv_lt_0_compat. pose proof (Rabs_pos r). pose proof (Rabs_pos (m n)). pose proof (pow2_ge_0 (a n)). pose proof (pow2_ge_0 (Th + q)).
  assert (0 <= Rabs r * (t / INR n)) by nra. assert (0 <= q * Rabs (m n)) by nra. assert (0 <= (Th + q) ^ 2 * a n ^ 2) by nra. lra.
Qed.
Lemma lamn_step n w : (0 < n)%nat -> Tn n (vq q) w <= lamn n * vq q w.
Proof.
  intro Hn. assert (0 < INR n) by now apply lt_0_INR. assert (Htn : 0 < t / INR n) by now apply Rdiv_lt_0_compat.
  assert (P : forall y, Rabs y = q -> exp (- r * (t / INR n)) * (tp (th n) (a n) * exp (y * (w + m n + a n)) + (1 - tp (th n) (a n)) * exp (y * (w + m n - a n))) <= lamn n * exp (y * w)).
  { intros y Hy. rewrite tp_compl. unfold tp. pose proof (ch_ge_1 (th n * a n)) as C1.
    replace (exp (th n * a n) / (2 * ch (th n * a n)) * exp (y * (w + m n + a n)) + exp (- (th n * a n)) / (2 * ch (th n * a n)) * exp (y * (w + m n - a n))) with (exp (y * m n) * ch ((th n + y) * a n) / ch (th n * a n) * exp (y * w)).
    2:{ unfold ch at 1. replace (y * (w + m n + a n)) with (y * w + y * m n + y * a n) by ring. replace (y * (w + m n - a n)) with (y * w + y * m n + - (y * a n)) by ring. replace ((th n + y) * a n) with (th n * a n + y * a n) by ring.
        replace (- (th n * a n + y * a n)) with (- (th n * a n) + - (y * a n)) by ring. rewrite !exp_plus. field. lra. }
    rewrite <- Rmult_assoc. apply Rmult_le_compat_r; [apply Rlt_le, exp_pos|]. unfold lamn. rewrite !exp_plus, Rmult_assoc. apply Rmult_le_compat; [apply Rlt_le, exp_pos| | |].
    - apply Rmult_le_pos; [apply Rmult_le_pos; [apply Rlt_le, exp_pos|pose proof (ch_ge_1 ((th n + y) * a n)); lra]|apply Rlt_le, Rinv_0_lt_compat; lra].
    - apply exp_le. pose proof (Rle_abs (- r)) as Q. rewrite Rabs_Ropp in Q. nra.
    - apply Rle_trans with (exp (y * m n) * ch ((th n + y) * a n)).
      + unfold Rdiv. rewrite <- (Rmult_1_r (exp (y * m n) * ch ((th n + y) * a n))) at 2. apply Rmult_le_compat_l; [apply Rmult_le_pos; [apply Rlt_le, exp_pos|pose proof (ch_ge_1 ((th n + y) * a n)); lra]|]. rewrite <- Rinv_1. apply Rinv_le_contravar; lra.
      + apply Rmult_le_compat; [apply Rlt_le, exp_pos|pose proof (ch_ge_1 ((th n + y) * a n)); lra| |].
        * apply exp_le. pose proof (Rle_abs (y * m n)) as Q. rewrite Rabs_mult, Hy in Q. exact Q.
        * eapply Rle_trans; [apply cosh_le|]. apply exp_le. rewrite Rpow_mult_distr. pose proof (pow2_ge_0 (a n)). assert (Rabs (th n + y) <= Th + q) by (eapply Rle_trans; [apply Rabs_triang|]; pose proof (Hth n); lra).
          assert ((th n + y) ^ 2 <= (Th + q) ^ 2). { rewrite <- (pow2_abs (th n + y)). apply pow_incr. split; [apply Rabs_pos|assumption]. } nra. }
  unfold Tn, bstep, vq. pose proof (P q (Rabs_pos_eq q Hq)) as P1. pose proof (P (- q)) as P2. rewrite Rabs_Ropp in P2. specialize (P2 (Rabs_pos_eq q Hq)). lra.
Qed.
Lemma lamn_pow : exists Cl N, 0 <= Cl /\ forall n, (N <= n)%nat -> lamn n ^ n <= Cl.
Proof.
  destruct sizes as (N & H). exists (exp (Rabs r * t + q * L0 + (Th + q) ^ 2 * BB ^ 2 / 2)), N. split; [apply Rlt_le, exp_pos|]. intros n Hn. destruct (H n Hn) as (Hn0 & _ & A2 & A3 & _). assert (HI : 0 < INR n) by now apply lt_0_INR.
  unfold lamn. rewrite exp_pow. apply exp_le. replace (INR n * (Rabs r * (t / INR n) + q * Rabs (m n) + (Th + q) ^ 2 * a n ^ 2 / 2)) with (Rabs r * t + q * (INR n * Rabs (m n)) + (Th + q) ^ 2 * (INR n * a n ^ 2) / 2) by (field; lra).
  rewrite Rabs_mult, (Rabs_pos_eq (INR n)) in A3 by lra. pose proof (pow2_ge_0 (Th + q)). nra.
Qed.

Theorem binomial_american g cg : 0 <= cg -> lip cg q g -> forall w, exists v, (forall eps, 0 < eps -> exists N, forall n, (N <= n)%nat -> Rabs (AV (Tn n) g n w - v) < eps) /\
  (forall k, (0 < k)%nat -> BV (Gt (t / INR k)) g k w <= v) /\ (forall eps, 0 < eps -> exists m0, forall k, (m0 <= k)%nat -> v - eps <= BV (Gt (t / INR k)) g k w).
Proof.
  intros Hcg Hg w. destruct Gt_cls as (CG & HCG & Hcls). destruct lamn_pow as (Cl & N & HCl & Hlam).
  apply (american_limit (vq q) (fun c f => lip c q f) Tn Gt lamn (S N) Cl CG t g cg); try assumption.
  - intro x. apply Rlt_le, vq_pos.
  - intros n Hn. apply bstep_mono; [apply Rlt_le, exp_pos|]. pose proof (tp_range (th n) (a n)). lra.
  - intros n Hn. apply bstep_lin.
  - intros n Hn. split; [apply lamn_1; lia|]. split; [apply Hlam; lia|]. intro x. apply lamn_step. lia.
  - intros eps He. apply (walk_clt eps He).
  - intros eps He. apply (Gt_mod eps He).
  - intros c f _ x. apply Gt_0.
  - intros c c' f h Hc Hc' Hf Hh. now apply lip_max.
Qed.

Theorem binomial_any_dates g cg w v : 0 <= cg -> lip cg q g -> (forall eps, 0 < eps -> exists N, forall n, (N <= n)%nat -> Rabs (AV (Tn n) g n w - v) < eps) ->
  forall k u, 0 <= u -> INR k * u <= t -> BV (Gt u) g k w <= v.
Proof.
  intros Hcg Hg. destruct Gt_cls as (CG & HCG & Hcls). destruct lamn_pow as (Cl & N & HCl & Hlam).
  apply (any_dates (vq q) (fun c f => lip c q f) Tn Gt lamn (S N) Cl CG t g cg); try assumption.
  - intro x. apply Rlt_le, vq_pos.
  - intros n Hn. apply bstep_mono; [apply Rlt_le, exp_pos|]. pose proof (tp_range (th n) (a n)). lra.
  - intros n Hn. apply bstep_lin.
  - intros n Hn. split; [apply lamn_1; lia|]. split; [apply Hlam; lia|]. intro x. apply lamn_step. lia.
  - intros eps He. apply (walk_clt eps He).
  - intros eps He. apply (Gt_mod eps He).
  - intros c c' f h Hc Hc' Hf Hh. now apply lip_max.
Qed.

Lemma it_it {X} k j (T : (X -> R) -> X -> R) f : it k (it j T) f = it (k * j) T f.
Proof. induction k as [|k IH]; [reflexivity|]. cbn [it Nat.mul]. now rewrite it_plus, IH. Qed.
(** exercise only at every second step *)
Theorem binomial_american_two g cg : 0 <= cg -> lip cg q g -> forall w, exists v, (forall eps, 0 < eps -> exists N, forall n, (N <= n)%nat -> Rabs (AV (it 2 (Tn (2 * n))) g n w - v) < eps) /\
  (forall k, (0 < k)%nat -> BV (Gt (t / INR k)) g k w <= v) /\ (forall eps, 0 < eps -> exists m0, forall k, (m0 <= k)%nat -> v - eps <= BV (Gt (t / INR k)) g k w).
Proof.
  intros Hcg Hg w. destruct Gt_cls as (CG & HCG & Hcls). destruct lamn_pow as (Cl & N & HCl & Hlam).
  assert (M : forall n, mono (Tn n)) by (intro n; apply bstep_mono; [apply Rlt_le, exp_pos|]; pose proof (tp_range (th n) (a n)); lra).
  assert (L : forall n, linear (Tn n)) by (intro n; apply bstep_lin).
  apply (american_limit (vq q) (fun c f => lip c q f) (fun n => it 2 (Tn (2 * n))) Gt (fun n => lamn (2 * n) ^ 2) (S N) Cl CG t g cg); try assumption.
  - intro x. apply Rlt_le, vq_pos.
  - intros n Hn f h Hfh. now apply it_mono.
  - intros n Hn. now apply it_lin.
  - intros n Hn. pose proof (lamn_1 (2 * n) ltac:(lia)) as L1. split; [now apply pow_R1_Rle|]. split.
    + rewrite <- pow_mult. apply Hlam. lia.
    + apply it_weight; try apply M; try apply L; [lra|]. intro x. apply lamn_step. lia.
  - intros eps He. destruct (walk_clt eps He) as (N1 & H1). exists (S N1). intros n Hn k Hk c f Hc Hf x. rewrite it_it. specialize (H1 (2 * n)%nat ltac:(lia) (k * 2)%nat ltac:(lia) c f Hc Hf x).
    replace (INR (k * 2) * (t / INR (2 * n))) with (INR k * (t / INR n)) in H1; [exact H1|]. rewrite !mult_INR. cbn [INR]. field. apply not_0_INR. lia.
  - intros eps He. apply (Gt_mod eps He).
  - intros c f _ x. apply Gt_0.
  - intros c c' f h Hc Hc' Hf Hh. now apply lip_max.
Qed.
End Lim.
