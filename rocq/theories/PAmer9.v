(** American prices of the two-asset tree converge (C65). *)
From Coq Require Import Reals String List Arith ZArith Lra Lia Psatz.
From Coquelicot Require Import Coquelicot.
From Verif Require Import Num Py MTrees MSpread STrees SLattice SSpread SHeston SSpread2 SAmer2 PCnd PGauss PHeston PHeston2 PGen PTrees3 PSpread3 PLattice PExpect PExpect2 PClt PClt2 PMargrabe PTwoAsset PAmer1 PAmer2 PAmer8.
Import List ListNotations.
Open Scope R_scope.

(** ** the specification determines the value *)
Lemma after_pos b1 b2 s1 s2 rho dt x zs : 0 < fst x -> 0 < snd x -> 0 < fst (after b1 b2 s1 s2 rho dt x zs) /\ 0 < snd (after b1 b2 s1 s2 rho dt x zs).
Proof. intros H1 H2. unfold after, lognormal1, lognormal2. cbn [fst snd]. split; apply Rmult_lt_0_compat; try assumption; apply exp_pos. Qed.
Lemma bermudan2_unique g r b1 b2 s1 s2 rho dt k : forall x v w, 0 < fst x -> 0 < snd x -> bermudan2 g r b1 b2 s1 s2 rho dt k x v -> bermudan2 g r b1 b2 s1 s2 rho dt k x w -> v = w.
Proof.
  induction k as [|k IH]; intros x v w H1 H2; cbn [bermudan2]; [intros -> ->; reflexivity|]. intros (f & c & Hf & Hc & ->) (f' & c' & Hf' & Hc' & ->). f_equal.
  apply (is_expect_unique _ _ _ _ Hc). eapply is_expect_ext; [|exact Hc']. intros zs _. cbv beta. f_equal. destruct (after_pos b1 b2 s1 s2 rho dt x zs H1 H2) as [P1 P2]. symmetry.
  exact (IH _ _ _ P1 P2 (Hf _ P1 P2) (Hf' _ P1 P2)).
Qed.
Lemma american2_unique g r b1 b2 s1 s2 rho t x v w : 0 < fst x -> 0 < snd x -> american_value2 g r b1 b2 s1 s2 rho t x v -> american_value2 g r b1 b2 s1 s2 rho t x w -> v = w.
Proof.
  intros H1 H2 (B & HB & LB) (B' & HB' & LB'). apply is_lim_seq_unique in LB. apply is_lim_seq_unique in LB'.
  assert (E : Lim_seq B = Lim_seq B').
  { apply Lim_seq_ext_loc. exists 1%nat. intros n Hn. destruct (HB n Hn) as [A1 _]. destruct (HB' n Hn) as [A2 _]. exact (bermudan2_unique _ _ _ _ _ _ _ _ _ _ _ _ H1 H2 A1 A2). }
  rewrite LB, LB' in E. now injection E.
Qed.

(** ** payoffs of the logarithms of the prices *)
Definition logs (g : R * R -> R) (w : R * R) : R := g (exp (fst w), exp (snd w)).
Lemma doc_cls code call Q1 Q2 K K2 g : code <> 8%Z -> (forall x, doc_payoff code call Q1 Q2 K K2 (fst x) (snd x) = Some (g x)) -> exists c, 0 <= c /\ cls2 1 c (logs g).
Proof.
  intros H8 Hg. change (L2 1 (fun x y => logs g (x, y))). set (q := 1). assert (Hq : 0 <= q) by (unfold q; lra).
  set (Z := fun x y : R => (exp x, exp y)).
  assert (X1 : L2 q (fun x y => fst (Z x y))) by (eapply L2_ext; [|apply (L2_exp q 1 0 1 0)]; [intros x y; cbn; rewrite Rmult_1_l; f_equal; ring|rewrite Rabs_R1; unfold q; lra|rewrite Rabs_R0; exact Hq]).
  assert (X2 : L2 q (fun x y => snd (Z x y))) by (eapply L2_ext; [|apply (L2_exp q 1 0 0 1)]; [intros x y; cbn; rewrite Rmult_1_l; f_equal; ring|rewrite Rabs_R0; exact Hq|rewrite Rabs_R1; unfold q; lra]).
  assert (X3 : L2 q (fun x y => Q1 * fst (Z x y) * Q2 * snd (Z x y))).
  { eapply L2_ext; [|apply (L2_exp q (Q1 * Q2) 0 1 1)]; [|rewrite Rabs_R1; unfold q; lra|rewrite Rabs_R1; unfold q; lra]. intros x y. cbn. replace (0 + 1 * x + 1 * y) with (x + y) by ring. rewrite exp_plus. ring. }
  apply (L2_ext q (fun x y => match doc_payoff code call Q1 Q2 K K2 (fst (Z x y)) (snd (Z x y)) with Some v => v | None => 0 end)).
  { intros x y. rewrite (Hg (Z x y)). reflexivity. }
  clearbody Z. specialize (Hg (0, 0)). destruct code as [|p|p]; try discriminate.
  do 4 (try destruct p as [p|p|]); try discriminate; try (now destruct (H8 eq_refl));
    destruct call; cbn [doc_payoff]; repeat (first [exact X1|exact X2|exact X3|apply L2_max|apply L2_min|apply L2_minus|apply L2_plus|apply L2_scal|apply (L2_const q); exact Hq]).
Qed.

Section Amer.
Variables (r b1 b2 s1 s2 rho t : R).
Hypotheses (Ht : 0 < t) (Hr : -1 <= rho <= 1).
Let al := s2 * rho.
Let be := s2 * sqrt (1 - rho ^ 2).
Let n1 := b1 - s1 ^ 2 / 2.
Let n2 := b2 - s2 ^ 2 / 2.
Notation G := (G2 r n1 n2 s1 al be).
Notation T := (T2 r t n1 n2 s1 al be).

Lemma at2_after w u zs : (exp (fst (at2 n1 n2 s1 al be w u zs)), exp (snd (at2 n1 n2 s1 al be w u zs))) = after b1 b2 s1 s2 rho u (exp (fst w), exp (snd w)) zs.
Proof.
  unfold at2, after, lognormal1, lognormal2. cbn [fst snd]. rewrite <- !exp_plus. fold n1 n2. unfold al, be. f_equal; f_equal; ring.
Qed.
(** values with few exercise dates *)
Lemma BV_bermudan2 g c0 : 0 <= c0 -> cls2 1 c0 (logs g) -> forall m k, (0 < m)%nat -> forall w,
  bermudan2 g r b1 b2 s1 s2 rho (t / INR m) k (exp (fst w), exp (snd w)) (BV (G (t / INR m)) (logs g) k w).
Proof.
  intros Hc0 Hg m k Hm. set (u := t / INR m). assert (HI : 0 < INR m) by now apply lt_0_INR. assert (HI1 : 1 <= INR m) by (apply (le_INR 1); lia). assert (Hu : 0 <= u <= t).
  { split; [apply Rlt_le, Rdiv_lt_0_compat; assumption|]. unfold u. apply Rmult_le_reg_r with (INR m); [exact HI|]. unfold Rdiv. rewrite Rmult_assoc, Rinv_l by lra. nra. }
  destruct (G2_cls 1 r t n1 n2 s1 al be ltac:(lra) Ht) as (CG & HCG & Hcls).
  assert (LB : forall k, exists c, 0 <= c /\ cls2 1 c (BV (G u) (logs g) k)).
  { intro j. induction j as [|j (c & Hc & IH)]; [now exists c0|]. exists (c0 + CG * c). assert (0 <= CG * c) by nra. split; [lra|]. apply (lip2_max c0 (CG * c) 1 (fun x y => logs g (x, y)) (fun x y => G u (BV (G u) (logs g) j) (x, y))); [exact Hg|]. apply Hcls; assumption. }
  induction k as [|k IH]; intro w; [reflexivity|]. cbn [bermudan2].
  exists (fun x => BV (G u) (logs g) k (ln (fst x), ln (snd x))), (G u (BV (G u) (logs g) k) w). split; [|split].
  - intros y Hy1 Hy2. specialize (IH (ln (fst y), ln (snd y))). cbn [fst snd] in IH. rewrite !exp_ln in IH by assumption. destruct y as [y1 y2]. exact IH.
  - destruct (LB k) as (c & Hc & Hl). unfold G2 at 2. eapply is_expect_ext; [|apply expect_scal; exact (G2_expect 1 t n1 n2 s1 al be ltac:(lra) Ht c _ w u Hc Hu Hl)].
    intros zs _. cbv beta. do 2 f_equal. rewrite <- at2_after. cbn [fst snd]. rewrite !ln_exp. now destruct (at2 _ _ _ _ _ _ _ _).
  - reflexivity.
Qed.
Lemma european2 g c0 w u : 0 <= c0 -> cls2 1 c0 (logs g) -> 0 <= u <= t -> two_asset_value (exp (fst w)) (exp (snd w)) u r b1 b2 s1 s2 rho g (G u (logs g) w).
Proof.
  intros Hc0 Hg Hu. unfold two_asset_value, G2. eapply is_expect_ext; [|apply expect_scal; exact (G2_expect 1 t n1 n2 s1 al be ltac:(lra) Ht c0 _ w u Hc0 Hu Hg)].
  intros zs _. cbv beta zeta. f_equal. unfold logs. rewrite at2_after. reflexivity.
Qed.
(** the tree recursion *)
Lemma GV_AV g n : forall m w, GV quarter (step2 b1 b2 s1 s2 rho (t / INR n)) two_moves (exp (- r * (t / INR n))) true g m (exp (fst w), exp (snd w)) = AV (T n) (logs g) m w.
Proof.
  set (dt := t / INR n). induction m as [|m IH]; intro w; [reflexivity|]. cbn [GV AV]. cbv zeta.
  assert (E : forall a, GV quarter (step2 b1 b2 s1 s2 rho dt) two_moves (exp (- r * dt)) true g m (step2 b1 b2 s1 s2 rho dt a (exp (fst w), exp (snd w))) = Hs2 n1 n2 s1 al be (AV (T n) (logs g) m) w dt (sign (fst a) * sqrt dt) (sign (snd a) * sqrt dt)).
  { intro a. unfold Hs2. rewrite <- IH. cbn [fst snd]. f_equal. unfold step2, factor1, factor2. cbn [fst snd]. rewrite <- !exp_plus. fold n1 n2. unfold al, be. f_equal; f_equal; ring. }
  match goal with |- Rmax ?a ?b = Rmax ?c ?d => cut (a = c); [intros ->; reflexivity|] end. unfold T2 at 1. cbv zeta. fold dt. f_equal.
  set (act := step2 b1 b2 s1 s2 rho dt) in *. set (V := GV quarter act two_moves (exp (- r * dt)) true g m) in *. unfold two_moves, sumR. cbn [map fold_right]. rewrite !E. unfold quarter. cbn [fst snd sign]. rewrite !Rmult_1_l. replace (-1 * sqrt dt) with (- sqrt dt) by ring. field.
Qed.
Lemma american2_of g c0 w : 0 <= c0 -> cls2 1 c0 (logs g) -> exists v, american_value2 g r b1 b2 s1 s2 rho t (exp (fst w), exp (snd w)) v /\
  (forall eps, 0 < eps -> exists N, forall n, (N <= n)%nat -> Rabs (AV (T n) (logs g) n w - v) < eps) /\
  ((forall u, 0 <= u <= t -> forall y, logs g y <= G u (logs g) y) -> v = G t (logs g) w) /\
  (forall k u, 0 <= u -> INR k * u <= t -> BV (G u) (logs g) k w <= v).
Proof.
  intros Hc0 Hg. destruct (two_american 1 r t n1 n2 s1 al be ltac:(lra) Ht (logs g) c0 Hc0 Hg w) as (v & H1 & H2 & H3). exists v. split; [|split; [exact H1|split]].
  - exists (fun m => BV (G (t / INR m)) (logs g) m w). split.
    + intros m Hm. split; [|now apply H2]. exact (BV_bermudan2 g c0 Hc0 Hg m m Hm w).
    + apply is_lim_seq_spec. intros [eps He]. destruct (H3 (eps / 2) ltac:(lra)) as (m0 & Hm0). exists (S m0). intros n Hn. specialize (Hm0 n ltac:(lia)). specialize (H2 n ltac:(lia)). cbn [pos]. apply Rabs_def1; lra.
  - intro Hh. exact (two_no_early 1 r t n1 n2 s1 al be ltac:(lra) Ht (logs g) c0 w v Hc0 Hg Hh H2 H3).
  - exact (two_any_dates 1 r t n1 n2 s1 al be ltac:(lra) Ht (logs g) c0 w v Hc0 Hg H1).
Qed.
End Amer.

Lemma amer_all S1 S2 t r b1 b2 s1 s2 rho K K2 Q1 Q2 code call g : 0 < S1 -> 0 < S2 -> 0 < t -> -1 <= rho <= 1 -> code <> 8%Z -> (code = 7%Z -> call = true) ->
  (forall x, doc_payoff code call Q1 Q2 K K2 (fst x) (snd x) = Some (g x)) ->
  exists v price, american_value2 g r b1 b2 s1 s2 rho t (S1, S2) v /\
    (forall n, n <> 0%nat -> all_types call false code S1 S2 t r b1 b2 s1 s2 rho (Some K) (Some K2) Q1 Q2 "american" n = Ok (Price (price n))) /\ is_lim_seq price v /\
    ((forall u x e, 0 <= u <= t -> 0 < fst x -> 0 < snd x -> two_asset_value (fst x) (snd x) u r b1 b2 s1 s2 rho g e -> g x <= e) -> two_asset_value S1 S2 t r b1 b2 s1 s2 rho g v).
Proof.
  intros H1 H2 Ht Hr H8 H7 Hg. destruct (doc_cls _ _ _ _ _ _ _ H8 Hg) as (c0 & Hc0 & Hc). set (w := (ln S1, ln S2)).
  assert (Ew : (exp (fst w), exp (snd w)) = (S1, S2)) by (unfold w; cbn [fst snd]; now rewrite !exp_ln).
  destruct (american2_of r b1 b2 s1 s2 rho t Ht Hr g c0 w Hc0 Hc) as (v & HA & HL & HN & _). rewrite Ew in HA.
  exists v, (fun n => GV quarter (step2 b1 b2 s1 s2 rho (t / INR n)) two_moves (exp (- r * (t / INR n))) true g n (S1, S2)). split; [exact HA|]. split; [|split].
  - intros n Hn. rewrite (all_price _ _ _ _ _ _ _ _ _ _ _ _ _ _ _ _ _ Hn g); [reflexivity|]. intro x. rewrite doc_code; auto.
  - apply is_lim_seq_spec. intros [eps He]. destruct (HL eps He) as (N & H). exists N. intros n Hn. cbn [pos]. rewrite <- Ew, GV_AV by assumption. now apply H.
  - intro Hh. rewrite HN.
    + pose proof (european2 r b1 b2 s1 s2 rho t Ht g c0 w t Hc0 Hc ltac:(lra)) as E. unfold w at 1 2 in E. cbn [fst snd] in E. rewrite !exp_ln in E by assumption. exact E.
    + intros u Hu y. apply (Hh u (exp (fst y), exp (snd y))); cbn [fst snd]; [exact Hu|apply exp_pos|apply exp_pos|]. exact (european2 r b1 b2 s1 s2 rho t Ht g c0 y u Hc0 Hc Hu).
Qed.

Lemma amer_dates g c0 x t r b1 b2 s1 s2 rho v k dt w : 0 < fst x -> 0 < snd x -> 0 < t -> 0 < dt -> -1 <= rho <= 1 -> 0 <= c0 -> cls2 1 c0 (logs g) ->
  american_value2 g r b1 b2 s1 s2 rho t x v -> INR k * dt <= t -> bermudan2 g r b1 b2 s1 s2 rho dt k x w -> w <= v.
Proof.
  intros H1 H2 Ht Hdt Hr Hc0 Hc HA Hk HB. set (y := (ln (fst x), ln (snd x))). assert (Ey : (exp (fst y), exp (snd y)) = x) by (unfold y; cbn [fst snd]; rewrite !exp_ln by assumption; now destruct x).
  destruct (american2_of r b1 b2 s1 s2 rho t Ht Hr g c0 y Hc0 Hc) as (v' & HA' & _ & _ & HD). rewrite Ey in HA'. rewrite (american2_unique _ _ _ _ _ _ _ _ _ _ _ H1 H2 HA HA').
  pose proof (BV_bermudan2 r b1 b2 s1 s2 rho dt Hdt Hr g c0 Hc0 Hc 1 k ltac:(lia) y) as HB'. replace (dt / INR 1) with dt in HB' by (cbn; field). rewrite Ey in HB'.
  rewrite (bermudan2_unique _ _ _ _ _ _ _ _ _ _ _ _ H1 H2 HB HB'). apply HD; lra.
Qed.

(*@ C65_american_limit | American prices of the two-asset tree (codes 1-6, 9 and the exchange option's call) converge, as the number of steps grows, to the American value of the documented payoff on two correlated lognormal assets; that value always exists. *)
Lemma c65_limit : forall S1 S2 t r b1 b2 s1 s2 rho K K2 Q1 Q2 code call g,
  0 < S1 -> 0 < S2 -> 0 < t -> -1 <= rho <= 1 -> code <> 8%Z -> (code = 7%Z -> call = true) ->
  (forall x, doc_payoff code call Q1 Q2 K K2 (fst x) (snd x) = Some (g x)) ->
  exists v price, american_value2 g r b1 b2 s1 s2 rho t (S1, S2) v /\
    (forall n, n <> 0%nat -> all_types call false code S1 S2 t r b1 b2 s1 s2 rho (Some K) (Some K2) Q1 Q2 "american" n = Ok (Price (price n))) /\
    is_lim_seq price v.
Proof. intros * H1 H2 Ht Hr H8 H7 Hg. destruct (amer_all S1 S2 t r b1 b2 s1 s2 rho K K2 Q1 Q2 code call g H1 H2 Ht Hr H8 H7 Hg) as (v & p & A & B & C & _). exists v, p. auto. Qed.

(*@ C65_value_unique | The American value of a claim on two assets is determined by the payoff and the market: two numbers satisfying its definition are equal. *)
Lemma c65_unique : forall g S1 S2 t r b1 b2 s1 s2 rho v w, 0 < S1 -> 0 < S2 ->
  american_value2 g r b1 b2 s1 s2 rho t (S1, S2) v -> american_value2 g r b1 b2 s1 s2 rho t (S1, S2) w -> v = w.
Proof. intros * H1 H2. now apply american2_unique. Qed.

(*@ C65_bounds | The American value is at least what immediate exercise pays and at least the European value. *)
Lemma c65_bounds : forall g S1 S2 t r b1 b2 s1 s2 rho v, 0 < S1 -> 0 < S2 -> american_value2 g r b1 b2 s1 s2 rho t (S1, S2) v ->
  g (S1, S2) <= v /\ forall e, two_asset_value S1 S2 t r b1 b2 s1 s2 rho g e -> e <= v.
Proof.
  intros * H1 H2 (B & HB & _). destruct (HB 1%nat ltac:(lia)) as [A1 A2]. cbn [bermudan2] in A1. destruct A1 as (f & c & Hf & Hc & E). rewrite E in A2. clear E.
  replace (t / INR 1) with t in Hc by (cbn; field). split; [eapply Rle_trans; [apply Rmax_l|exact A2]|].
  intros e He. eapply Rle_trans; [|exact A2]. eapply Rle_trans; [|apply Rmax_r]. apply Req_le. apply (is_expect_unique _ _ _ _ He). eapply is_expect_ext; [|exact Hc]. intros zs _. cbv beta zeta. f_equal.
  destruct (after_pos b1 b2 s1 s2 rho t (S1, S2) zs H1 H2) as [P1 P2]. now rewrite (Hf _ P1 P2).
Qed.

(** ** no early exercise *)
Lemma portfolio_mean p x u r b1 b2 s1 s2 rho : 0 < u -> -1 <= rho <= 1 -> let '(a, c, d) := p in
  is_expect 2 (fun zs => exp (- r * u) * portfolio p (after b1 b2 s1 s2 rho u x zs)) (a * fst x * exp ((b1 - r) * u) + c * snd x * exp ((b2 - r) * u) + d * exp (- r * u)).
Proof.
  intros Hu Hr. destruct p as [[a c] d]. assert (M1 := X1_mean (fst x * exp (b1 * u)) (s1 * sqrt u)). assert (M2 := X2_mean (snd x * exp (b2 * u)) (s2 * sqrt u * rho) (s2 * sqrt u * sqrt (1 - rho ^ 2))).
  assert (P := is_expect_lin _ _ _ _ _ (exp (- r * u)) (exp (- r * u)) (is_expect_lin _ _ _ _ _ a c M1 M2) (is_expect_const1 2 d)). cbv beta in P.
  replace (a * fst x * exp ((b1 - r) * u) + c * snd x * exp ((b2 - r) * u) + d * exp (- r * u)) with (exp (- r * u) * (a * (fst x * exp (b1 * u)) + c * (snd x * exp (b2 * u))) + exp (- r * u) * d).
  - eapply is_expect_ext; [|exact P]. intros zs _. cbv beta. unfold portfolio, after. cbn [fst snd]. rewrite ln1_X1, ln2_X2 by assumption. ring.
  - replace ((b1 - r) * u) with (- r * u + b1 * u) by ring. replace ((b2 - r) * u) with (- r * u + b2 * u) by ring. rewrite !exp_plus. ring.
Qed.
Lemma grow a k u : 0 <= a * k -> 0 <= u -> a <= a * exp (k * u).
Proof.
  intros H Hu. destruct (Rle_or_lt 0 a) as [Ha|Ha].
  - destruct (Rle_or_lt 0 k) as [Hk|Hk]; [assert (1 <= exp (k * u)) by (rewrite <- exp_0; apply exp_le; nra); nra|]. assert (a = 0) by nra. subst. lra.
  - assert (k <= 0) by nra. assert (exp (k * u) <= 1) by (rewrite <- exp_0; apply exp_le; nra). nra.
Qed.
Lemma portfolio_grows p x u r b1 b2 : 0 <= u -> 0 < fst x -> 0 < snd x -> better_later r b1 b2 p -> let '(a, c, d) := p in portfolio p x <= a * fst x * exp ((b1 - r) * u) + c * snd x * exp ((b2 - r) * u) + d * exp (- r * u).
Proof.
  destruct p as [[a c] d]. intros Hu H1 H2 (B1 & B2 & B3). unfold portfolio. pose proof (grow (a * fst x) (b1 - r) u ltac:(nra) Hu). pose proof (grow (c * snd x) (b2 - r) u ltac:(nra) Hu). pose proof (grow d (- r) u ltac:(lra) Hu). lra.
Qed.
Lemma best_ge p ps x : In p ps -> portfolio p x <= best_of ps x.
Proof. induction ps as [|q ps IH]; intros []; cbn [best_of fold_right]; [subst; apply Rmax_l|]. eapply Rle_trans; [now apply IH|apply Rmax_r]. Qed.
Lemma best_0 ps x : 0 <= best_of ps x.
Proof. induction ps as [|q ps IH]; cbn [best_of fold_right]; [lra|]. eapply Rle_trans; [exact IH|apply Rmax_r]. Qed.
Lemma best_le ps x M : 0 <= M -> (forall p, In p ps -> portfolio p x <= M) -> best_of ps x <= M.
Proof. intros H0 H. induction ps as [|q ps IH]; cbn [best_of fold_right]; [exact H0|]. apply Rmax_lub; [apply H; now left|]. apply IH. intros. apply H. now right. Qed.
Lemma value_0 x r b1 b2 s1 s2 rho g e : two_asset_value (fst x) (snd x) 0 r b1 b2 s1 s2 rho g e -> e = g x.
Proof.
  intro H. apply (is_expect_unique _ _ _ _ H). eapply is_expect_ext; [|apply (is_expect_const1 2 (g x))]. intros zs _. cbv beta zeta. unfold lognormal1, lognormal2. rewrite sqrt_0, !Rmult_0_r, !Rmult_0_l, !Rmult_0_r, Rplus_0_r, exp_0, !Rmult_1_r, Rmult_1_l. now destruct x.
Qed.

(*@ C65_no_early_exercise | When the payoff is the best of several portfolios of the two assets and cash (or nothing), and every position of every portfolio is worth at least as much later (an asset held long has carry of at least the interest rate, one held short at most that; cash paid earns interest), the American tree prices converge to the European value: the right to exercise early is worth nothing in the limit. *)
Lemma c65_no_early : forall S1 S2 t r b1 b2 s1 s2 rho K K2 Q1 Q2 code call ps,
  0 < S1 -> 0 < S2 -> 0 < t -> -1 <= rho <= 1 -> code <> 8%Z -> (code = 7%Z -> call = true) ->
  (forall x, doc_payoff code call Q1 Q2 K K2 (fst x) (snd x) = Some (best_of ps x)) -> Forall (better_later r b1 b2) ps ->
  exists v price, two_asset_value S1 S2 t r b1 b2 s1 s2 rho (best_of ps) v /\
    american_value2 (best_of ps) r b1 b2 s1 s2 rho t (S1, S2) v /\
    (forall n, n <> 0%nat -> all_types call false code S1 S2 t r b1 b2 s1 s2 rho (Some K) (Some K2) Q1 Q2 "american" n = Ok (Price (price n))) /\
    is_lim_seq price v.
Proof.
  intros * H1 H2 Ht Hr H8 H7 Hg HF. destruct (amer_all S1 S2 t r b1 b2 s1 s2 rho K K2 Q1 Q2 code call _ H1 H2 Ht Hr H8 H7 Hg) as (v & price & A & B & C & D). exists v, price. split; [|auto]. apply D. clear D.
  intros u x e Hu P1 P2 He. destruct (Req_dec u 0) as [->|Hu0]; [rewrite (value_0 _ _ _ _ _ _ _ _ _ He); lra|].
  unfold two_asset_value in He.
  assert (E0 : 0 <= e).
  { refine (is_expect_le 2 _ _ _ _ _ (is_expect_const1 2 0) He). intros zs _. cbv beta zeta. apply Rmult_le_pos; [apply Rlt_le, exp_pos|apply best_0]. }
  apply best_le; [exact E0|]. intros p Hp. rewrite Forall_forall in HF. pose proof (portfolio_grows p x u r b1 b2 ltac:(lra) P1 P2 (HF p Hp)) as G. pose proof (portfolio_mean p x u r b1 b2 s1 s2 rho ltac:(lra) Hr) as M. destruct p as [[a c] d].
  eapply Rle_trans; [exact G|]. refine (is_expect_le 2 _ _ _ _ _ M He). intros zs _. cbv beta zeta. apply Rmult_le_compat_l; [apply Rlt_le, exp_pos|]. apply (best_ge (a, c, d)). exact Hp.
Qed.

(*@ C65_exchange | The American exchange option's call (code 7), when the carry of the asset received covers interest and that of the asset given does not exceed it, converges to Margrabe's formula with the exact normal distribution function. *)
Lemma c65_exchange : forall S1 S2 t r b1 b2 s1 s2 rho K K2 Q1 Q2,
  0 < S1 -> 0 < S2 -> 0 < Q1 -> 0 < Q2 -> 0 < t -> -1 < rho < 1 -> 0 < s2 -> b1 <= r -> r <= b2 ->
  exists price,
    (forall n, n <> 0%nat -> all_types true false 7 S1 S2 t r b1 b2 s1 s2 rho (Some K) (Some K2) Q1 Q2 "american" n = Ok (Price (price n))) /\
    is_lim_seq price (margrabe S2 S1 t r b2 b1 s2 s1 rho Q2 Q1).
Proof.
  intros * H1 H2 HQ1 HQ2 Ht Hr Hs Hb1 Hb2. destruct (c65_no_early S1 S2 t r b1 b2 s1 s2 rho K K2 Q1 Q2 7 true [(- Q1, Q2, 0)] H1 H2 Ht ltac:(lra) ltac:(lia) ltac:(reflexivity)) as (v & price & Hv & _ & HP & HL).
  - intro x. cbn [doc_payoff best_of fold_right portfolio]. rewrite Rmax_comm. do 2 f_equal. ring.
  - constructor; [|constructor]. cbn. repeat split; nra.
  - exists price. split; [exact HP|]. assert (E := value_21 S1 S2 t r b1 b2 s1 s2 rho Q1 Q2 H1 H2 HQ1 HQ2 Ht Hr Hs).
    assert (E' : two_asset_value S1 S2 t r b1 b2 s1 s2 rho (fun x => Rmax 0 (Q2 * snd x - Q1 * fst x)) v).
    { unfold two_asset_value in *. eapply is_expect_ext; [|exact Hv]. intros zs _. cbv beta zeta. f_equal. cbn [best_of fold_right portfolio fst snd]. rewrite Rmax_comm. f_equal. ring. }
    rewrite (is_expect_unique _ _ _ _ E E'). exact HL.
Qed.

(*@ C65_any_dates | The American value is at least the value with any number of equally spaced exercise dates, whatever their distance, as long as the last one is not after expiry. *)
Lemma c65_any_dates : forall S1 S2 t r b1 b2 s1 s2 rho K K2 Q1 Q2 code call g v k dt w,
  0 < S1 -> 0 < S2 -> 0 < t -> 0 < dt -> -1 <= rho <= 1 -> code <> 8%Z ->
  (forall x, doc_payoff code call Q1 Q2 K K2 (fst x) (snd x) = Some (g x)) ->
  american_value2 g r b1 b2 s1 s2 rho t (S1, S2) v -> INR k * dt <= t -> bermudan2 g r b1 b2 s1 s2 rho dt k (S1, S2) w -> w <= v.
Proof.
  intros * H1 H2 Ht Hdt Hr H8 Hg. destruct (doc_cls _ _ _ _ _ _ _ H8 Hg) as (c0 & Hc0 & Hc). now apply (amer_dates g c0).
Qed.

(*@ C65_maturity | The American value of every documented payoff does not decrease with the time to maturity. *)
Lemma c65_maturity : forall S1 S2 t t' r b1 b2 s1 s2 rho K K2 Q1 Q2 code call g v v',
  0 < S1 -> 0 < S2 -> 0 < t -> t <= t' -> -1 <= rho <= 1 -> code <> 8%Z ->
  (forall x, doc_payoff code call Q1 Q2 K K2 (fst x) (snd x) = Some (g x)) ->
  american_value2 g r b1 b2 s1 s2 rho t (S1, S2) v -> american_value2 g r b1 b2 s1 s2 rho t' (S1, S2) v' -> v <= v'.
Proof.
  intros * H1 H2 Ht Htt Hr H8 Hg (B & HB & LB) HA'. refine (is_lim_seq_le_loc B (fun _ => v') v v' _ LB (is_lim_seq_const v')). exists 1%nat. intros n Hn. destruct (HB n Hn) as [Hb _].
  assert (HI : 0 < INR n) by now apply lt_0_INR. apply (c65_any_dates S1 S2 t' r b1 b2 s1 s2 rho K K2 Q1 Q2 code call g v' n (t / INR n) (B n)); try assumption; try lra; [now apply Rdiv_lt_0_compat|].
  replace (INR n * (t / INR n)) with t by (field; lra). exact Htt.
Qed.
