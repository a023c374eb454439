(** Bjerksund-Stensland against the American value (C80). *)
From Coq Require Import Reals ZArith QArith Qreals String List Bool Lra Lia.
From Coquelicot Require Import Coquelicot.
From Verif Require Import Num Py MBase MVanilla MTrees MAmerican SMonte SHeston SSpread2 SAmer PTrees2 PGauss PCnd PCnd2 PBlack PGbs PVanilla SAmerican PBs PHeston PHeston2 PExpect PExpect2 PClt PMargrabe PMonte6 PTrees3 PTrees4 PConv PBs2 STrees PAmer6 PAmer7 PAmer10.
Open Scope R_scope.

(** ** claims paying exp (g x) when the log price x ends above h *)
Section Blocks.
Variables r b s : R.
Hypothesis Hs : 0 < s.
Let nu := b - s ^ 2 / 2.
Definition lam (g : R) : R := - r + g * nu + g ^ 2 * s ^ 2 / 2.
Definition U (g h u x : R) : R :=
  if Rle_dec u 0 then (if Rle_dec h x then exp (g * x) else 0)
  else exp (lam g * u + g * x) * Phi ((x - h + (nu + g * s ^ 2) * u) / (s * sqrt u)).
Lemma mean_tail q z0 : is_mean (fun z => exp (q * z - q ^ 2 / 2) * (if Rle_dec z0 z then 1 else 0)) (Phi (q - z0)).
Proof.
  replace (q - z0) with (- (z0 - q)) by ring. eapply is_mean_ext; [|exact (mean_shift _ _ q (mean_indicator (z0 - q)))]. intro z. cbv beta.
  destruct (Rle_dec (z0 - q) (z - q)), (Rle_dec z0 z); try lra; ring.
Qed.
Lemma U_step g h u v x : 0 <= u -> 0 < v -> is_mean (fun z => exp (- r * v) * U g h u (x + (nu * v + s * (sqrt v * z)))) (U g h (u + v) x).
Proof.
  intros Hu Hv. pose proof (sqrt_lt_R0 v Hv) as Hsv. assert (Svv : sqrt v * sqrt v = v) by (apply sqrt_sqrt; lra). set (q := g * s * sqrt v).
  assert (Hq2 : q ^ 2 = g ^ 2 * s ^ 2 * v) by (unfold q; transitivity (g ^ 2 * s ^ 2 * (sqrt v * sqrt v)); [ring|now rewrite Svv]).
  unfold U at 2. destruct (Rle_dec (u + v) 0); [lra|]. destruct (Rle_lt_or_eq_dec 0 u Hu) as [Hu0|<-].
  - pose proof (sqrt_lt_R0 u Hu0) as Hsu. assert (Suu : sqrt u * sqrt u = u) by (apply sqrt_sqrt; lra). assert (Huv : 0 < u + v) by lra. pose proof (sqrt_lt_R0 _ Huv) as Hsuv.
    set (c := sqrt v / sqrt u). set (a := (x + nu * v - h + (nu + g * s ^ 2) * u) / (s * sqrt u)).
    assert (Hc : sqrt (1 + c ^ 2) = sqrt (u + v) / sqrt u).
    { rewrite <- sqrt_div by lra. f_equal. unfold c. transitivity (1 + sqrt v * sqrt v / (sqrt u * sqrt u)); [field; lra|]. rewrite Svv, Suu. field. lra. }
    assert (P := mean_scal _ _ (exp (lam g * (u + v) + g * x)) (mean_exp_Phi a c q)). rewrite Hc in P.
    replace ((a + c * q) / (sqrt (u + v) / sqrt u)) with ((x - h + (nu + g * s ^ 2) * (u + v)) / (s * sqrt (u + v))) in P.
    2:{ unfold a, c, q. replace (x - h + (nu + g * s ^ 2) * (u + v)) with (x - h + (nu + g * s ^ 2) * u + nu * v + g * s ^ 2 * (sqrt v * sqrt v)) by (rewrite Svv; ring). field. lra. }
    eapply is_mean_ext; [|exact P]. intro z. cbv beta. unfold U. destruct (Rle_dec u 0); [lra|]. rewrite <- !Rmult_assoc, <- !exp_plus. f_equal; [|f_equal].
    + f_equal. unfold lam. rewrite Hq2. unfold q. field.
    + unfold a, c. field. lra.
  - rewrite Rplus_0_l. set (z0 := (h - x - nu * v) / (s * sqrt v)). assert (Hw : 0 < s * sqrt v) by (apply Rmult_lt_0_compat; lra).
    assert (P := mean_scal _ _ (exp (lam g * v + g * x)) (mean_tail q z0)).
    replace (q - z0) with ((x - h + (nu + g * s ^ 2) * v) / (s * sqrt v)) in P.
    2:{ unfold q, z0. replace (x - h + (nu + g * s ^ 2) * v) with (x - h + nu * v + g * s ^ 2 * (sqrt v * sqrt v)) by (rewrite Svv; ring). field. lra. }
    eapply is_mean_ext; [|exact P]. intro z. cbv beta. unfold U. destruct (Rle_dec 0 0); [|lra].
    assert (E : s * sqrt v * z0 = h - x - nu * v) by (unfold z0; field; lra).
    assert (Ez : h <= x + (nu * v + s * (sqrt v * z)) <-> z0 <= z).
    { split; intro H.
      - apply Rmult_le_reg_l with (s * sqrt v); [exact Hw|]. rewrite E. lra.
      - apply (Rmult_le_compat_l (s * sqrt v)) in H; [|lra]. rewrite E in H. lra. }
    destruct (Rle_dec z0 z) as [Y|Y], (Rle_dec h (x + (nu * v + s * (sqrt v * z)))) as [Z|Z]; try (exfalso; tauto); [|ring].
    rewrite Rmult_1_r, <- !exp_plus. f_equal. unfold lam. rewrite Hq2. unfold q. field.
Qed.

(** sums of such claims with one level *)
Fixpoint W (P : list (R * R)) (h u x : R) : R := match P with nil => 0 | (c, g) :: P' => c * U g h u x + W P' h u x end.
Fixpoint ep (P : list (R * R)) (x : R) : R := match P with nil => 0 | (c, g) :: P' => c * exp (g * x) + ep P' x end.
Lemma W_step P h u v x : 0 <= u -> 0 < v -> is_mean (fun z => exp (- r * v) * W P h u (x + (nu * v + s * (sqrt v * z)))) (W P h (u + v) x).
Proof.
  intros Hu Hv. induction P as [|[c g] P IH]; cbn [W].
  - eapply is_mean_ext; [|exact (mean_const 0)]. intro z. cbv beta. ring.
  - replace (W P h (u + v) x) with (1 * W P h (u + v) x) by ring. eapply is_mean_ext; [|exact (is_mean_lin _ _ _ _ c 1 (U_step g h u v x Hu Hv) IH)]. intro z. cbv beta. ring.
Qed.
Lemma W_0 P h x : W P h 0 x = if Rle_dec h x then ep P x else 0.
Proof. induction P as [|[c g] P IH]; cbn [W ep]; [destruct (Rle_dec h x); reflexivity|]. rewrite IH. unfold U. destruct (Rle_dec 0 0); [|lra]. destruct (Rle_dec h x); ring. Qed.
Lemma W_0_max P h x : ep P h = 0 -> W P h 0 x = ep P (Rmax x h).
Proof. intro H. rewrite W_0. destruct (Rle_dec h x); [rewrite Rmax_left by lra; reflexivity|]. rewrite Rmax_right by lra. now symmetry. Qed.

Definition elip (f : R -> R) : Prop := exists L p, 0 <= L /\ 0 <= p /\ forall x d, 0 <= d -> Rabs (f (x + d) - f x) <= L * d * exp (p * (Rabs x + d)).
Lemma elip_plus f f' : elip f -> elip f' -> elip (fun x => f x + f' x).
Proof.
  intros (L & p & HL & Hp & H) (L' & p' & HL' & Hp' & H'). exists (L + L'), (Rmax p p'). pose proof (Rmax_l p p'). pose proof (Rmax_r p p'). split; [lra|]. split; [lra|]. intros x d Hd.
  specialize (H x d Hd). specialize (H' x d Hd). pose proof (Rabs_pos x).
  assert (E : forall y, y <= Rmax p p' -> exp (y * (Rabs x + d)) <= exp (Rmax p p' * (Rabs x + d))) by (intros y Hy; apply exp_le, Rmult_le_compat_r; lra).
  replace (f (x + d) + f' (x + d) - (f x + f' x)) with (f (x + d) - f x + (f' (x + d) - f' x)) by ring. eapply Rle_trans; [apply Rabs_triang|].
  pose proof (E p ltac:(lra)). pose proof (E p' ltac:(lra)). assert (0 <= L * d) by (apply Rmult_le_pos; lra). assert (0 <= L' * d) by (apply Rmult_le_pos; lra).
  assert (L * d * exp (p * (Rabs x + d)) <= L * d * exp (Rmax p p' * (Rabs x + d))) by (apply Rmult_le_compat_l; lra).
  assert (L' * d * exp (p' * (Rabs x + d)) <= L' * d * exp (Rmax p p' * (Rabs x + d))) by (apply Rmult_le_compat_l; lra). lra.
Qed.
Lemma elip_exp c g h : elip (fun x => c * exp (g * Rmax x h)).
Proof.
  exists (2 * Rabs c * Rabs g * exp (Rabs g * Rabs h)), (Rabs g). pose proof (Rabs_pos c). pose proof (Rabs_pos g). pose proof (exp_pos (Rabs g * Rabs h)). split; [|split; [lra|]].
  { apply Rmult_le_pos; [apply Rmult_le_pos|]; lra. }
  intros x d Hd. rewrite <- Rmult_minus_distr_l, Rabs_mult. pose proof (exp_lip (g * Rmax (x + d) h) (g * Rmax x h)) as X. rewrite <- Rmult_minus_distr_l, Rabs_mult in X.
  assert (M1 : Rabs (Rmax (x + d) h - Rmax x h) <= d). { unfold Rmax. destruct (Rle_dec (x + d) h), (Rle_dec x h); rewrite Rabs_pos_eq; lra. }
  assert (M2 : forall y, Rabs y <= Rabs x + d -> exp (g * Rmax y h) <= exp (Rabs g * Rabs h) * exp (Rabs g * (Rabs x + d))).
  { intros y Hy. rewrite <- exp_plus. apply exp_le. eapply Rle_trans; [apply Rle_abs|]. rewrite Rabs_mult, <- Rmult_plus_distr_l. apply Rmult_le_compat_l; [lra|].
    pose proof (Rabs_pos h). unfold Rmax. destruct (Rle_dec y h); [|lra]. pose proof (Rabs_pos x). lra. }
  assert (Y1 := M2 (x + d)). assert (Y2 := M2 x). assert (Rabs (x + d) <= Rabs x + d) by (eapply Rle_trans; [apply Rabs_triang|]; rewrite (Rabs_pos_eq d) by lra; lra).
  specialize (Y1 ltac:(lra)). specialize (Y2 ltac:(lra)). set (E := exp (Rabs g * Rabs h)) in *. set (F := exp (Rabs g * (Rabs x + d))) in *. assert (HF : 0 < F) by apply exp_pos.
  pose proof (exp_pos (g * Rmax (x + d) h)). pose proof (exp_pos (g * Rmax x h)).
  replace (2 * Rabs c * Rabs g * E * d * F) with (Rabs c * (Rabs g * d * (2 * (E * F)))) by ring. apply Rmult_le_compat_l; [lra|].
  eapply Rle_trans; [exact X|]. rewrite ?(Rmult_comm (_ + _)).
  apply Rmult_le_compat; [apply Rmult_le_pos; [lra|apply Rabs_pos]|lra| |lra]. apply Rmult_le_compat_l; lra.
Qed.
Lemma elip_ep P h : elip (fun x => ep P (Rmax x h)).
Proof.
  induction P as [|[c g] P IH]; cbn [ep].
  - exists 0, 0. split; [lra|]. split; [lra|]. intros x d Hd. rewrite Rminus_0_r, Rabs_R0. lra.
  - exact (elip_plus _ _ (elip_exp c g h) IH).
Qed.
Lemma elip_ext f f' : (forall x, f x = f' x) -> elip f -> elip f'.
Proof. intros H (L & p & HL & Hp & X). exists L, p. split; [exact HL|]. split; [exact Hp|]. intros x d Hd. rewrite <- !H. now apply X. Qed.
End Blocks.

(** ** exercise at the log price l, strike exp k *)
Section Value.
Variables r b s k l : R.
Hypothesis Hs : 0 < s.
Hypothesis Hb : b < r.
Hypothesis Hkl : k < l.
Let nu := b - s ^ 2 / 2.
Let K := exp k.
Let be := beta r b s.
Let c0 := 1 - 2 * b / s ^ 2.
Let al := (exp l - K) * exp (- be * l).
Let im (g : R) := exp ((2 * g - c0) * l).
Definition P1 : list (R * R) := (1, 1) :: (- K, 0) :: nil.
Definition P2 : list (R * R) := (al, be) :: (al * im be, c0 - be) :: (- 1, 1) :: (- im 1, c0 - 1) :: (K, 0) :: (K * im 0, c0 - 0) :: nil.
Definition P3 : list (R * R) := (im 1, c0 - 1) :: (- (K * im 0), c0 - 0) :: nil.
Definition VF (u x : R) : R := W r b s P1 k u x + W r b s P2 l u x + W r b s P3 (2 * l - k) u x.

Lemma s2_pos : 0 < s ^ 2. Proof. now apply pow_lt. Qed.
Lemma lam_be : lam r b s be = 0.
Proof. destruct (beta_spec r b s Hs Hb) as [_ E]. fold be in E. unfold lam. lra. Qed.
Lemma lam_im g : lam r b s (c0 - g) = lam r b s g.
Proof. unfold lam, c0. pose proof s2_pos. field. lra. Qed.
Lemma drift_im g : nu + (c0 - g) * s ^ 2 = - (nu + g * s ^ 2).
Proof. unfold nu, c0. pose proof s2_pos. field. lra. Qed.
Lemma im_eq g x : im g * exp ((c0 - g) * x) = exp (g * (2 * l - x)) * exp (c0 * (x - l)).
Proof. unfold im. rewrite <- !exp_plus. f_equal. ring. Qed.
Lemma al_be : al * exp (be * l) = exp l - K.
Proof. unfold al. rewrite Rmult_assoc, <- exp_plus. replace (- be * l + be * l) with 0 by ring. rewrite exp_0. ring. Qed.
Lemma ep_P1 : ep P1 k = 0.
Proof. cbn [ep P1]. rewrite Rmult_1_l, Rmult_0_l, exp_0. unfold K. ring_simplify (1 * k). ring. Qed.
Lemma ep_P2 : ep P2 l = 0.
Proof.
  cbn [ep P2]. assert (I1 : forall g, im g * exp ((c0 - g) * l) = exp (g * l)) by (intro g; rewrite im_eq; replace (l - l) with 0 by ring; rewrite Rmult_0_r, exp_0, Rmult_1_r; f_equal; ring).
  pose proof (I1 be) as Ib. pose proof (I1 1) as I1'. pose proof (I1 0) as I0. rewrite Rmult_0_l, exp_0 in I0 |- *. rewrite Rmult_1_l in I1' |- *. pose proof al_be as A.
  replace (al * im be * exp ((c0 - be) * l)) with (al * (im be * exp ((c0 - be) * l))) by ring. rewrite Ib.
  replace (- im 1 * exp ((c0 - 1) * l)) with (- (im 1 * exp ((c0 - 1) * l))) by ring. rewrite I1'.
  replace (K * im 0 * exp ((c0 - 0) * l)) with (K * (im 0 * exp ((c0 - 0) * l))) by ring. rewrite I0. lra.
Qed.
Lemma ep_P3 : ep P3 (2 * l - k) = 0.
Proof.
  cbn [ep P3]. rewrite im_eq. replace (- (K * im 0) * exp ((c0 - 0) * (2 * l - k))) with (- K * (im 0 * exp ((c0 - 0) * (2 * l - k)))) by ring. rewrite im_eq.
  rewrite Rmult_1_l, Rmult_0_l, exp_0. replace (2 * l - (2 * l - k)) with k by ring. unfold K. ring.
Qed.
Lemma VF_step u v x : 0 <= u -> 0 < v -> is_mean (fun z => exp (- r * v) * VF u (x + (nu * v + s * (sqrt v * z)))) (VF (u + v) x).
Proof.
  intros Hu Hv. unfold VF. assert (A := is_mean_lin _ _ _ _ 1 1 (W_step r b s Hs P1 k u v x Hu Hv) (W_step r b s Hs P2 l u v x Hu Hv)).
  assert (B := is_mean_lin _ _ _ _ 1 1 A (W_step r b s Hs P3 (2 * l - k) u v x Hu Hv)). match type of B with is_mean _ ?y => match goal with |- is_mean _ ?g => replace g with y by ring end end.
  eapply is_mean_ext; [|exact B]. intro z. cbv beta. unfold nu. ring.
Qed.
Lemma VF_lip : elip (VF 0).
Proof.
  apply (elip_ext (fun x => ep P1 (Rmax x k) + ep P2 (Rmax x l) + ep P3 (Rmax x (2 * l - k)))).
  - intro x. unfold VF. rewrite !W_0_max by (apply ep_P1 || apply ep_P2 || apply ep_P3). reflexivity.
  - apply (elip_plus (fun x => ep P1 (Rmax x k) + ep P2 (Rmax x l))); [apply (elip_plus (fun x => ep P1 (Rmax x k)))|]; apply elip_ep.
Qed.
Lemma VF_end x : x < l -> VF 0 x = Rmax (exp x - K) 0.
Proof.
  intro Hx. unfold VF. rewrite !W_0. destruct (Rle_dec l x); [lra|]. destruct (Rle_dec (2 * l - k) x); [lra|]. rewrite !Rplus_0_r.
  cbn [ep P1]. rewrite Rmult_0_l, exp_0, !Rmult_1_l. destruct (Rle_dec k x) as [H|H].
  - assert (K <= exp x) by (unfold K; now apply exp_le). rewrite Rmax_left by lra. ring.
  - assert (exp x < K) by (apply exp_increasing; lra). rewrite Rmax_right by lra. reflexivity.
Qed.
(** the closed form *)
Definition dd (g h u x : R) : R := (h - x - (nu + g * s ^ 2) * u) / (s * sqrt u).
Definition phi' (u x g h : R) : R := exp (lam r b s g * u + g * x) * (Phi (dd g h u x) - exp ((l - x) * (2 * g - c0)) * Phi (dd g h u x - 2 * (l - x) / (s * sqrt u))).
Lemma U_phi g h u x : 0 < u -> exp (lam r b s g * u + g * x) - U r b s g h u x - im g * U r b s (c0 - g) (2 * l - h) u x = phi' u x g h.
Proof.
  intro Hu. unfold U, phi'. destruct (Rle_dec u 0); [lra|]. pose proof (sqrt_lt_R0 u Hu) as Hsu. assert (Hw : 0 < s * sqrt u) by (apply Rmult_lt_0_compat; lra).
  fold nu. rewrite lam_im, drift_im. replace ((x - h + (nu + g * s ^ 2) * u) / (s * sqrt u)) with (- dd g h u x) by (unfold dd; field; lra). rewrite Phi_opp.
  replace ((x - (2 * l - h) + - (nu + g * s ^ 2) * u) / (s * sqrt u)) with (dd g h u x - 2 * (l - x) / (s * sqrt u)) by (unfold dd; field; lra).
  replace (im g * (exp (lam r b s g * u + (c0 - g) * x) * Phi (dd g h u x - 2 * (l - x) / (s * sqrt u)))) with (exp (lam r b s g * u + g * x) * exp ((l - x) * (2 * g - c0)) * Phi (dd g h u x - 2 * (l - x) / (s * sqrt u))).
  - ring.
  - rewrite <- Rmult_assoc. f_equal. unfold im. rewrite <- !exp_plus. f_equal. ring.
Qed.
Lemma VF_closed u x : 0 < u -> VF u x = al * exp (be * x) - al * phi' u x be l + phi' u x 1 l - phi' u x 1 k - K * phi' u x 0 l + K * phi' u x 0 k.
Proof.
  intro Hu. rewrite <- !U_phi by exact Hu. rewrite lam_be, Rmult_0_l, Rplus_0_l. replace (2 * l - l) with l by ring. unfold VF. cbn [W P1 P2 P3]. ring.
Qed.
Lemma VF_bd u : 0 <= u -> VF u l = exp l - K.
Proof.
  intro Hu. destruct (Rle_lt_or_eq_dec 0 u Hu) as [H|<-].
  - rewrite VF_closed by exact H. assert (Z : forall g h, phi' u l g h = 0) by (intros g h; unfold phi'; replace (l - l) with 0 by ring; rewrite Rmult_0_l, Rmult_0_r, exp_0; unfold Rdiv; rewrite Rmult_0_l, Rminus_0_r; ring).
    rewrite !Z, <- al_be. ring.
  - unfold VF. rewrite (W_0_max _ _ _ P2), (W_0_max _ _ _ P3) by (apply ep_P2 || apply ep_P3). rewrite W_0. destruct (Rle_dec k l); [|lra]. rewrite Rmax_left, ep_P2, Rmax_right, ep_P3 by lra. cbn [ep P1]. rewrite Rmult_0_l, exp_0, !Rmult_1_l. ring.
Qed.
Lemma VF_le t x v : 0 < t -> x < l -> american_value (call_put true K) r b s t (exp x) v -> VF t x <= v.
Proof.
  intros Ht Hx. destruct VF_lip as (L & p & HL & Hp & H). apply (flat_le r b s t K l Hs Ht VF VF_step L p HL Hp H VF_bd); [|exact Hx]. intros y Hy. rewrite VF_end by exact Hy. lra.
Qed.
Lemma VF_lower t S0 : 0 < t -> 0 < S0 -> lower K t r b s Phi (exp l) S0 = VF t (ln S0).
Proof.
  intros Ht HS. rewrite VF_closed by exact Ht. pose proof (sqrt_lt_R0 t Ht) as Hst. assert (Stt : sqrt t * sqrt t = t) by (apply sqrt_sqrt; lra). pose proof s2_pos.
  assert (E : forall g h, bs_phi_F Phi S0 t g (exp h) (exp l) r b s = phi' t (ln S0) g h).
  { intros g h. rewrite phi_eq by (try exact Ht; try exact Hs; try exact HS; apply exp_pos). unfold phi', phi_l. rewrite ln_exp. rewrite <- exp_plus.
    replace (phi_z t b s S0 (exp h) - g * (s * sqrt t)) with (dd g h t (ln S0)).
    2:{ unfold phi_z, dd. rewrite ln_exp. fold nu. replace ((nu + g * s ^ 2) * t) with (nu * t + g * s ^ 2 * (sqrt t * sqrt t)) by (rewrite Stt; ring). field. lra. }
    replace (2 * b / s ^ 2 + (2 * g - 1)) with (2 * g - c0) by (unfold c0; ring).
    replace ((- r + g * b + 1 / 2 * g * (g - 1) * s ^ 2) * t + g * ln S0) with (lam r b s g * t + g * ln S0) by (unfold lam; field). reflexivity. }
  unfold lower. fold be. unfold Rpower. rewrite ln_exp. pose proof (E be l) as E1. pose proof (E 1 l) as E2. pose proof (E 1 k) as E3. pose proof (E 0 l) as E4. pose proof (E 0 k) as E5. fold K in E3, E5.
  rewrite E1, E2, E3, E4, E5. reflexivity.
Qed.
End Value.

Lemma bs_le S K t r b s I0 v : 0 < S -> 0 < K -> 0 < t -> 0 < s -> b < r -> K < I0 -> S < I0 ->
  american_value (call_put true K) r b s t S v -> lower K t r b s Phi I0 S <= v.
Proof.
  intros HS HK Ht Hs Hb HI HSI A. assert (HI0 : 0 < I0) by lra. assert (Hkl : ln K < ln I0) by now apply ln_increasing.
  pose proof (VF_lower r b s (ln K) (ln I0) Hs Hb t S Ht HS) as E. rewrite !exp_ln in E by assumption. rewrite E.
  apply (VF_le r b s (ln K) (ln I0) Hs Hb Hkl t (ln S) v Ht); [now apply ln_increasing|]. rewrite !exp_ln by assumption. exact A.
Qed.

(*@ C80_call | With exact normal distribution functions the Bjerksund-Stensland call (b < r, b t + 2 sigma sqrt t > 0) is at most the American value, the common limit of American tree prices of all four classes: it is what exercising at the trigger, or at expiry, is worth. *)
Lemma c80_call : forall c S K t r b s, 0 < S -> 0 < K -> 0 < t -> 0 < s -> b < r -> 0 < b * t + 2 * s * sqrt t ->
  exists x I0 v price, bs_call_F Phi (mkAmer S K t r b (Some s)) = Ok (x, Some I0) /\
    american_value (call_put true K) r b s t S v /\
    (forall n, n <> 0%nat -> tree_price c (mkTree S K t r b s "american" n) true false = Ok (Price (price n))) /\
    is_lim_seq price v /\ x <= v.
Proof.
  intros c S K t r b s HS HK Ht Hs Hb H. destruct (c63_limit c S K t r b s true HS HK Ht Hs) as (v & price & A & HP & L).
  pose proof (trig_bounds K t r b s HK Hs Hb H) as T. pose proof (B0_bounds K r b s HK Hs Hb) as B.
  do 2 eexists. exists v, price. split; [apply call_eq; assumption|]. split; [exact A|]. split; [exact HP|]. split; [exact L|].
  destruct (Rle_dec _ S) as [X|X].
  - destruct (c63_bounds S K t r b s true v HS A) as [Y _]. unfold call_put in Y. pose proof (Rmax_l (S - K) 0). lra.
  - apply (bs_le S K t r b s); auto; lra.
Qed.

(*@ C80_put | The same for the Bjerksund-Stensland put with r > 0 and b t < 2 sigma sqrt t. *)
Lemma c80_put : forall c S K t r b s, 0 < S -> 0 < K -> 0 < t -> 0 < s -> 0 < r -> b * t < 2 * s * sqrt t ->
  exists x I0 v price, bs_put_F Phi (mkAmer S K t r b (Some s)) = Ok (x, Some I0) /\
    american_value (call_put false K) r b s t S v /\
    (forall n, n <> 0%nat -> tree_price c (mkTree S K t r b s "american" n) false false = Ok (Price (price n))) /\
    is_lim_seq price v /\ x <= v.
Proof.
  intros c S K t r b s HS HK Ht Hs Hr H. destruct (c63_limit c S K t r b s false HS HK Ht Hs) as (v & price & A & HP & L).
  destruct (c80_call c K S t (r - b) (- b) s HK HS Ht Hs ltac:(lra) ltac:(lra)) as (x & I0 & v' & _ & E & A' & _ & _ & X).
  pose proof (c66_duality K S t (r - b) (- b) s v' HK HS Ht Hs A') as D. replace (r - b - - b) with r in D by ring. replace (- - b) with b in D by ring.
  assert (v = v') as <- by exact (c63_unique _ _ _ _ _ _ _ _ HS A D). exists x, I0, v, price.
  split; [exact E|]. split; [exact A|]. split; [exact HP|]. split; [exact L|exact X].
Qed.
