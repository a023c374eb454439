(** Lattice prices against volatility and interest rates: comparison of two lattices. *)
From Coq Require Import Reals String List Arith ZArith QArith Bool Lia Lra Psatz.
From Coquelicot Require Import Coquelicot.
From Interval Require Import Tactic.
From Verif Require Import Num Py Arr MTrees STrees PTrees PTrees2 PStop PTrees3 PLattice PTrees4.
Import ListNotations.
Open Scope R_scope.

(* ------------------------------------------------------------------ classes of payoffs *)
Definition cvx (g : R -> R) : Prop :=
  forall l x y, 0 <= l <= 1 -> 0 < x -> 0 < y -> g (l * x + (1 - l) * y) <= l * g x + (1 - l) * g y.
Definition inc (g : R -> R) : Prop := forall x y, 0 < x -> x <= y -> g x <= g y.
Definition dec (g : R -> R) : Prop := forall x y, 0 < x -> x <= y -> g y <= g x.
Definition rinc (g : R -> R) : Prop := forall x y, 0 < x -> x <= y -> y * g x <= x * g y.
Definition rdec (g : R -> R) : Prop := forall x y, 0 < x -> x <= y -> x * g y <= y * g x.

(** two lattices compared on a class of payoffs containing the prices of the second *)
Lemma WM_cmp (P : (R -> R) -> Prop) mv1 mv2 D1 D2 amer z K :
  (forall a, In a mv1 -> 0 <= fst a /\ 0 < snd a) -> 0 < D1 ->
  (forall m, P (WM amer mv2 D2 z K m)) ->
  (forall g x, P g -> (forall y, 0 <= g y) -> 0 < x -> D1 * Ex mv1 g x <= D2 * Ex mv2 g x) ->
  (forall a, In a mv2 -> 0 <= fst a) -> 0 < D2 ->
  forall m x, 0 < x -> WM amer mv1 D1 z K m x <= WM amer mv2 D2 z K m x.
Proof.
  intros H1 HD1 HP HE H2 HD2. induction m; intros x Hx.
  - rewrite !WM_0. lra.
  - rewrite !WM_S.
    assert (E : D1 * Ex mv1 (WM amer mv1 D1 z K m) x <= D2 * Ex mv2 (WM amer mv2 D2 z K m) x).
    { eapply Rle_trans; [|apply HE; auto; intro; now apply WM_nonneg].
      apply Rmult_le_compat_l; [lra|]. apply Ex_mono; [intros; apply H1; auto|].
      intros a Ha. apply IHm. destruct (H1 a Ha). now apply Rmult_lt_0_compat. }
    destruct amer; auto. apply Rle_max_compat_l. exact E.
Qed.

(** and the other way round *)
Lemma WM_cmp' (P : (R -> R) -> Prop) mv1 mv2 D1 D2 amer z K :
  (forall a, In a mv1 -> 0 <= fst a) -> 0 < D1 ->
  (forall m, P (WM amer mv1 D1 z K m)) ->
  (forall g x, P g -> (forall y, 0 <= g y) -> 0 < x -> D1 * Ex mv1 g x <= D2 * Ex mv2 g x) ->
  (forall a, In a mv2 -> 0 <= fst a /\ 0 < snd a) -> 0 < D2 ->
  forall m x, 0 < x -> WM amer mv1 D1 z K m x <= WM amer mv2 D2 z K m x.
Proof.
  intros H1 HD1 HP HE H2 HD2. induction m; intros x Hx.
  - rewrite !WM_0. lra.
  - rewrite !WM_S.
    assert (E : D1 * Ex mv1 (WM amer mv1 D1 z K m) x <= D2 * Ex mv2 (WM amer mv2 D2 z K m) x).
    { eapply Rle_trans; [apply HE; auto; intro; now apply WM_nonneg|].
      apply Rmult_le_compat_l; [lra|]. apply Ex_mono; [intros; apply H2; auto|].
      intros a Ha. apply IHm. destruct (H2 a Ha). now apply Rmult_lt_0_compat. }
    destruct amer; auto. apply Rle_max_compat_l. exact E.
Qed.

Section Classes.
Variables (mv : list move) (D : R) (amer : bool) (K : R).
Hypothesis Hw : forall a, In a mv -> 0 <= fst a.
Hypothesis Hp : forall a, In a mv -> 0 < snd a.
Hypothesis HD : 0 < D.

Lemma WM_cvx z m : cvx (WM amer mv D z K m).
Proof.
  intros l x y Hl _ _. pose proof (WM_convex mv D Hw HD amer z K K m x y l Hl) as H.
  replace (l * K + (1 - l) * K) with K in H by ring. exact H.
Qed.
Let Hp0 : forall a, In a mv -> 0 <= snd a.
Proof. intros a Ha. left. now apply Hp. Qed.
Lemma WM_inc m : inc (WM amer mv D 1 K m).
Proof. intros x y _ Hxy. now apply WM_call_spot. Qed.
Lemma WM_dec m : dec (WM amer mv D (-1) K m).
Proof. intros x y _ Hxy. now apply WM_put_spot. Qed.
Lemma WM_ratio z m x y : 0 < x -> x <= y ->
  x * WM amer mv D z K m y = y * WM amer mv D z (K * (x / y)) m x.
Proof.
  intros Hx Hy. assert (Hc : 0 <= y / x) by (apply Rlt_le, Rdiv_lt_0_compat; lra).
  pose proof (WM_homog mv D amer z (y / x) (K * (x / y)) m x Hc) as H.
  replace (y / x * (K * (x / y))) with K in H by (field; lra).
  replace (y / x * x) with y in H by (field; lra). rewrite H. field. lra.
Qed.
Lemma ratio_le x y : 0 <= K -> 0 < x -> x <= y -> K * (x / y) <= K.
Proof.
  intros HK Hx Hy. rewrite <- (Rmult_1_r K) at 2. apply Rmult_le_compat_l; auto.
  apply Rmult_le_reg_r with y; [lra|]. unfold Rdiv. rewrite Rmult_assoc, Rinv_l by lra. lra.
Qed.
Lemma WM_rinc m : 0 <= K -> rinc (WM amer mv D 1 K m).
Proof.
  intros HK x y Hx Hxy. rewrite (WM_ratio _ m x y) by auto. apply Rmult_le_compat_l; [lra|].
  apply WM_call_strike; auto. now apply ratio_le.
Qed.
Lemma WM_rdec m : 0 <= K -> rdec (WM amer mv D (-1) K m).
Proof.
  intros HK x y Hx Hxy. rewrite (WM_ratio _ m x y) by auto. apply Rmult_le_compat_l; [lra|].
  apply WM_put_strike; auto. now apply ratio_le.
Qed.
End Classes.

(* ------------------------------------------------------------------ one binomial step *)
Definition two (p u d : R) : list move := [(p, u); (1 - p, d)].
Lemma Ex_two p u d g x : Ex (two p u d) g x = p * g (x * u) + (1 - p) * g (x * d).
Proof. unfold Ex, two. cbn [map fst snd sumR fold_right]. ring. Qed.

(** the chord above a convex function *)
Lemma chord g x u d v : cvx g -> 0 < x -> 0 < d -> d <= v <= u -> d < u ->
  g (x * v) <= (v - d) / (u - d) * g (x * u) + (1 - (v - d) / (u - d)) * g (x * d).
Proof.
  intros Hg Hx Hd Hv Hud. set (l := (v - d) / (u - d)).
  assert (Hl : 0 <= l <= 1).
  { unfold l. split.
    - apply Rmult_le_pos; [lra|]. left. apply Rinv_0_lt_compat. lra.
    - apply Rmult_le_reg_r with (u - d); [lra|]. unfold Rdiv. rewrite Rmult_assoc, Rinv_l by lra. lra. }
  replace (x * v) with (l * (x * u) + (1 - l) * (x * d)).
  - apply Hg; auto; apply Rmult_lt_0_compat; lra.
  - unfold l. field. lra.
Qed.

(** wider moves with the same mean are worth more *)
Lemma two_spread g x p1 u1 d1 p2 u2 d2 :
  cvx g -> 0 < x -> 0 < d2 -> d2 <= d1 -> d1 <= u1 -> u1 <= u2 -> d2 < u2 -> 0 <= p1 <= 1 ->
  p1 * u1 + (1 - p1) * d1 = p2 * u2 + (1 - p2) * d2 ->
  Ex (two p1 u1 d1) g x <= Ex (two p2 u2 d2) g x.
Proof.
  intros Hg Hx Hd2 Hd Hm Hu Hud Hp HF. rewrite !Ex_two.
  pose proof (chord g x u2 d2 u1 Hg Hx Hd2 ltac:(lra) Hud) as A.
  pose proof (chord g x u2 d2 d1 Hg Hx Hd2 ltac:(lra) Hud) as B.
  set (G := g (x * u2)) in *. set (H := g (x * d2)) in *.
  assert (E : p2 = p1 * ((u1 - d2) / (u2 - d2)) + (1 - p1) * ((d1 - d2) / (u2 - d2))).
  { apply Rmult_eq_reg_r with (u2 - d2); [|lra]. field_simplify; [|lra]. lra. }
  rewrite E. set (a := (u1 - d2) / (u2 - d2)) in *. set (c := (d1 - d2) / (u2 - d2)) in *.
  assert (p1 * g (x * u1) <= p1 * (a * G + (1 - a) * H)) by (apply Rmult_le_compat_l; lra).
  assert ((1 - p1) * g (x * d1) <= (1 - p1) * (c * G + (1 - c) * H)) by (apply Rmult_le_compat_l; lra).
  nra.
Qed.

Lemma two_shift g x p1 p2 u d :
  inc g -> 0 < x -> 0 < d -> d <= u -> p1 <= p2 ->
  Ex (two p1 u d) g x <= Ex (two p2 u d) g x.
Proof.
  intros Hg Hx Hd Hud Hp. rewrite !Ex_two.
  assert (g (x * d) <= g (x * u)). { apply Hg; [now apply Rmult_lt_0_compat|]. apply Rmult_le_compat_l; lra. }
  nra.
Qed.

(** half steps: the operator keeps the classes *)
Section Keep.
Variables (p u d : R).
Hypothesis Hp : 0 <= p <= 1.
Hypothesis Hu : 0 < u.
Hypothesis Hd : 0 < d.
Lemma keep_cvx g : cvx g -> cvx (Ex (two p u d) g).
Proof.
  intros Hg l x y Hl Hx Hy. rewrite !Ex_two.
  replace ((l * x + (1 - l) * y) * u) with (l * (x * u) + (1 - l) * (y * u)) by ring.
  replace ((l * x + (1 - l) * y) * d) with (l * (x * d) + (1 - l) * (y * d)) by ring.
  pose proof (Hg l (x * u) (y * u) Hl ltac:(now apply Rmult_lt_0_compat) ltac:(now apply Rmult_lt_0_compat)) as A.
  pose proof (Hg l (x * d) (y * d) Hl ltac:(now apply Rmult_lt_0_compat) ltac:(now apply Rmult_lt_0_compat)) as B.
  apply (Rmult_le_compat_l p) in A; [|lra]. apply (Rmult_le_compat_l (1 - p)) in B; [|lra]. lra.
Qed.
Lemma keep_inc g : inc g -> inc (Ex (two p u d) g).
Proof.
  intros Hg x y Hx Hy. rewrite !Ex_two.
  pose proof (Hg (x * u) (y * u) ltac:(now apply Rmult_lt_0_compat) ltac:(apply Rmult_le_compat_r; lra)) as A.
  pose proof (Hg (x * d) (y * d) ltac:(now apply Rmult_lt_0_compat) ltac:(apply Rmult_le_compat_r; lra)) as B.
  apply (Rmult_le_compat_l p) in A; [|lra]. apply (Rmult_le_compat_l (1 - p)) in B; [|lra]. lra.
Qed.
Lemma keep_rinc g : rinc g -> rinc (Ex (two p u d) g).
Proof.
  intros Hg x y Hx Hy. rewrite !Ex_two.
  pose proof (Hg (x * u) (y * u) ltac:(now apply Rmult_lt_0_compat) ltac:(apply Rmult_le_compat_r; lra)) as A.
  pose proof (Hg (x * d) (y * d) ltac:(now apply Rmult_lt_0_compat) ltac:(apply Rmult_le_compat_r; lra)) as B.
  assert (A' : y * g (x * u) <= x * g (y * u)) by (apply Rmult_le_reg_l with u; [lra|]; lra).
  assert (B' : y * g (x * d) <= x * g (y * d)) by (apply Rmult_le_reg_l with d; [lra|]; lra).
  apply (Rmult_le_compat_l p) in A'; [|lra]. apply (Rmult_le_compat_l (1 - p)) in B'; [|lra]. lra.
Qed.
End Keep.

(** the trinomial step is the binomial half step taken twice *)
Lemma Ex_tri b sigma dt g x :
  let q := step_p CRR b sigma (dt / 2) in let h := sigma * sqrt (dt / 2) in
  Ex (moves Tri b sigma dt) g x = Ex (two q (exp h) (exp (- h))) (Ex (two q (exp h) (exp (- h))) g) x.
Proof.
  intros q h. rewrite Ex_two, !Ex_two. unfold Ex, moves. cbv zeta. fold q h. cbn [map fst snd sumR fold_right].
  replace (x * exp h * exp h) with (x * exp (2 * h)) by (replace (2 * h) with (h + h) by ring; rewrite exp_plus; ring).
  replace (x * exp h * exp (- h)) with (x * 1) by (rewrite Rmult_assoc, <- exp_plus, Rplus_opp_r, exp_0; ring).
  replace (x * exp (- h) * exp h) with (x * 1) by (rewrite Rmult_assoc, <- exp_plus, Rplus_opp_l, exp_0; ring).
  replace (x * exp (- h) * exp (- h)) with (x * exp (- (2 * h)))
    by (replace (- (2 * h)) with (- h + - h) by ring; rewrite exp_plus; ring).
  ring.
Qed.
Lemma Ex_ext mv f g x : (forall a, In a mv -> f (x * snd a) = g (x * snd a)) -> Ex mv f x = Ex mv g x.
Proof. intro H. unfold Ex. apply sumR_ext. intros a Ha. now rewrite H. Qed.
Lemma Ex_opp mv g x : Ex mv (fun y => - g y) x = - Ex mv g x.
Proof.
  unfold Ex. rewrite (sumR_ext _ (fun a => -1 * (fst a * g (x * snd a)))) by (intros; ring).
  rewrite sumR_scal. ring.
Qed.

(* ------------------------------------------------------------------ the four classes *)
Lemma weights_p k b sigma dt : weights_ok (Bi k) b sigma dt -> 0 <= step_p k b sigma dt <= 1.
Proof.
  intro A. pose proof (A _ (or_introl eq_refl)) as A1. pose proof (A _ (or_intror (or_introl eq_refl))) as A2.
  cbn [fst] in A1, A2. lra.
Qed.
Lemma tri_half b sigma dt : 0 < dt -> 0 < sigma -> weights_ok Tri b sigma dt -> weights_ok (Bi CRR) b sigma (dt / 2).
Proof. intros Hd Hs H. apply crr_weights; [lra|auto|]. now apply trinomial_weights. Qed.

Section Crr.
Variables (b sigma dt : R).
Hypothesis Hd : 0 < dt.
Hypothesis Hs : 0 < sigma.
Lemma crr_h : 0 < sigma * sqrt dt.
Proof. apply Rmult_lt_0_compat; auto. now apply sqrt_lt_R0. Qed.
Lemma crr_ud : 0 < step_d CRR b sigma dt < 1 /\ 1 < step_u CRR b sigma dt.
Proof.
  pose proof crr_h. cbn [step_u step_d]. repeat split; [apply exp_pos|rewrite <- exp_0; apply exp_increasing; lra..].
Qed.
Lemma crr_mean : step_p CRR b sigma dt * step_u CRR b sigma dt + (1 - step_p CRR b sigma dt) * step_d CRR b sigma dt = exp (b * dt).
Proof. pose proof crr_ud. cbn [step_p]. field. lra. Qed.
End Crr.

Section Tian.
(** the moves of TIAN's step relative to the forward *)
Definition tw (V : R) : R := V / 2 * (V + 1 + sqrt (V ^ 2 + 2 * V - 3)).
Definition ty (V : R) : R := V / 2 * (V + 1 - sqrt (V ^ 2 + 2 * V - 3)).
Lemma t_sum V : ty V + tw V = V * (V + 1).
Proof. unfold ty, tw. field. Qed.
Lemma t_prod V : 1 <= V -> ty V * tw V = V ^ 2.
Proof.
  intro H. unfold ty, tw. assert (E : sqrt (V ^ 2 + 2 * V - 3) * sqrt (V ^ 2 + 2 * V - 3) = V ^ 2 + 2 * V - 3) by (apply sqrt_sqrt; nra).
  set (s := sqrt _) in *. transitivity (V ^ 2 / 4 * ((V + 1) ^ 2 - s * s)); [field|]. rewrite E. field.
Qed.
Lemma tw_ge V : 1 <= V -> V <= tw V.
Proof. intro H. unfold tw. pose proof (sqrt_pos (V ^ 2 + 2 * V - 3)). nra. Qed.
Lemma ty_eq V : 1 <= V -> V ^ 2 * (1 - ty V) - V * ty V + ty V ^ 2 = 0.
Proof. intro H. pose proof (t_sum V). pose proof (t_prod V H). assert (tw V = V * (V + 1) - ty V) by lra. rewrite H2 in H1. nra. Qed.
Lemma ty_ge V : 1 <= V -> 3 / 4 <= ty V.
Proof.
  intro H. pose proof (ty_eq V H) as E. pose proof (t_prod V H). pose proof (tw_ge V H).
  set (y := ty V) in *. destruct (Rle_lt_dec (3 / 4) y) as [|L]; auto. exfalso.
  assert (0 < y) by (destruct (Rle_lt_dec y 0); [|auto]; nra).
  assert ((2 * V * (1 - y) - y) ^ 2 + y ^ 2 * (3 - 4 * y) = 4 * (1 - y) * (V ^ 2 * (1 - y) - V * y + y ^ 2)) by ring.
  rewrite E, Rmult_0_r in H3. pose proof (pow2_ge_0 (2 * V * (1 - y) - y)). assert (0 < y ^ 2 * (3 - 4 * y)); [|lra].
  apply Rmult_lt_0_compat; [|lra]. now apply pow_lt.
Qed.
Lemma ty_le V : 1 <= V -> ty V <= 1.
Proof.
  intro H. pose proof (ty_eq V H) as E. pose proof (tw_ge V H). pose proof (t_sum V).
  set (y := ty V) in *. destruct (Rle_lt_dec y 1) as [|L]; auto. exfalso.
  assert (A : V ^ 2 * (y - 1) = y * (y - V)) by lra.
  assert (V < y) by nra. assert (y <= V ^ 2) by nra.
  assert ((y - 1) * y <= V ^ 2 * (y - 1)) by nra. nra.
Qed.
Lemma ty_decr V1 V2 : 1 <= V1 -> V1 <= V2 -> V2 <= 3 / 2 -> ty V2 <= ty V1.
Proof.
  intros H1 H H2. assert (H1' : 1 <= V2) by lra.
  pose proof (ty_eq V1 H1) as E1. pose proof (ty_ge V1 H1). pose proof (ty_le V1 H1).
  pose proof (t_sum V2). pose proof (t_prod V2 H1'). pose proof (tw_ge V2 H1').
  set (y1 := ty V1) in *. set (y2 := ty V2) in *. set (w2 := tw V2) in *.
  assert (F : (y1 - y2) * (y1 - w2) = (V2 - V1) * ((V1 + V2) * (1 - y1) - y1)).
  { transitivity (y1 ^ 2 - (V2 * (V2 + 1)) * y1 + V2 ^ 2); [rewrite <- H4, <- H5; ring|].
    transitivity (y1 ^ 2 - V2 * (V2 + 1) * y1 + V2 ^ 2 - (V1 ^ 2 * (1 - y1) - V1 * y1 + y1 ^ 2)); [rewrite E1; ring|ring]. }
  assert (G0 : (V1 + V2) * (1 - y1) <= 3 * (1 - y1)) by (apply Rmult_le_compat_r; lra).
  assert (G : (V2 - V1) * ((V1 + V2) * (1 - y1) - y1) <= 0).
  { rewrite <- (Rmult_0_r (V2 - V1)). apply Rmult_le_compat_l; lra. }
  pose proof (ty_le V2 H1') as Y2. fold y2 in Y2.
  destruct (Rle_lt_dec y2 y1) as [|L]; auto. exfalso. rewrite <- F in G.
  assert (X : y1 < w2) by lra.
  assert (0 < (y1 - y2) * (y1 - w2)) by (replace ((y1 - y2) * (y1 - w2)) with ((y2 - y1) * (w2 - y1)) by ring; apply Rmult_lt_0_compat; lra).
  lra.
Qed.
Lemma tw_incr V1 V2 : 1 <= V1 -> V1 <= V2 -> tw V1 <= tw V2.
Proof.
  intros H1 H. unfold tw. assert (sqrt (V1 ^ 2 + 2 * V1 - 3) <= sqrt (V2 ^ 2 + 2 * V2 - 3)) by (apply sqrt_le_1_alt; nra).
  pose proof (sqrt_pos (V1 ^ 2 + 2 * V1 - 3)). nra.
Qed.
Lemma tian_u' b sigma dt : step_u TIAN b sigma dt = exp (b * dt) * tw (exp (sigma ^ 2 * dt)).
Proof. cbn [step_u]. cbv zeta. unfold tw. field. Qed.
Lemma tian_d' b sigma dt : step_d TIAN b sigma dt = exp (b * dt) * ty (exp (sigma ^ 2 * dt)).
Proof. cbn [step_d]. cbv zeta. unfold ty. field. Qed.
Lemma V_ge sigma dt : 0 < dt -> 1 <= exp (sigma ^ 2 * dt).
Proof. intro. rewrite <- exp_0. apply exp_le_mono. pose proof (pow2_ge_0 sigma). nra. Qed.
End Tian.

(** more volatility, one step *)
Lemma step_vol c b s1 s2 dt :
  0 < dt -> 0 < s1 -> s1 <= s2 -> c <> Bi JR -> weights_ok c b s1 dt -> (c = Bi TIAN -> s2 ^ 2 * dt <= ln (3 / 2)) ->
  weights_ok c b s2 dt /\
  forall g x, cvx g -> 0 < x -> Ex (moves c b s1 dt) g x <= Ex (moves c b s2 dt) g x.
Proof.
  assert (C : forall dt, 0 < dt -> 0 < s1 -> s1 <= s2 -> weights_ok (Bi CRR) b s1 dt -> weights_ok (Bi CRR) b s2 dt /\
    forall g x, cvx g -> 0 < x -> Ex (moves (Bi CRR) b s1 dt) g x <= Ex (moves (Bi CRR) b s2 dt) g x).
  { clear. intros dt Hd H1 H Hw. split.
    - apply crr_weights in Hw; auto. apply crr_weights; lra.
    - intros g x Hg Hx. pose proof (weights_p _ _ _ _ Hw) as P1. pose proof (sqrt_lt_R0 dt Hd).
      change (Ex (two (step_p CRR b s1 dt) (step_u CRR b s1 dt) (step_d CRR b s1 dt)) g x <=
              Ex (two (step_p CRR b s2 dt) (step_u CRR b s2 dt) (step_d CRR b s2 dt)) g x).
      pose proof (crr_ud b s1 dt Hd H1). pose proof (crr_ud b s2 dt Hd ltac:(lra)).
      apply two_spread; auto; try lra.
      + cbn [step_d]. apply exp_le_mono. nra.
      + cbn [step_u]. apply exp_le_mono. nra.
      + rewrite !crr_mean; auto; lra. }
  intros Hd H1 H Hc Hw Ht. destruct c as [[| |]|]; try easy.
  - now apply C.
  - specialize (Ht eq_refl). split; [apply (jr_tian_weights b s2 dt Hd ltac:(lra))|].
    intros g x Hg Hx. pose proof (weights_p _ _ _ _ Hw) as P1.
    change (Ex (two (step_p TIAN b s1 dt) (step_u TIAN b s1 dt) (step_d TIAN b s1 dt)) g x <=
            Ex (two (step_p TIAN b s2 dt) (step_u TIAN b s2 dt) (step_d TIAN b s2 dt)) g x).
    destruct (jr_tian_weights b s1 dt Hd ltac:(lra)) as (_ & _ & A1 & A2).
    destruct (jr_tian_weights b s2 dt Hd ltac:(lra)) as (_ & _ & B1 & B2).
    assert (V12 : exp (s1 ^ 2 * dt) <= exp (s2 ^ 2 * dt)) by (apply exp_le_mono, Rmult_le_compat_r; [lra|apply pow_incr; lra]).
    pose proof (V_ge s1 dt Hd). pose proof (exp_pos (b * dt)).
    assert (V2 : exp (s2 ^ 2 * dt) <= 3 / 2) by (rewrite <- (exp_ln (3 / 2)) by lra; now apply exp_le_mono).
    apply two_spread; auto; try lra.
    + rewrite !tian_d'. apply Rmult_le_compat_l; [lra|]. now apply ty_decr.
    + rewrite !tian_u'. apply Rmult_le_compat_l; [lra|]. now apply tw_incr.
    + cbn [step_p]. field. lra.
  - pose proof (tri_half b s1 dt Hd H1 Hw) as Hh.
    destruct (C (dt / 2) ltac:(lra) H1 H Hh) as [W2 E2]. split.
    + apply trinomial_weights; [auto|lra|]. apply crr_weights; [lra|lra|exact W2].
    + intros g x Hg Hx. rewrite !Ex_tri. cbv zeta.
      set (h1 := s1 * sqrt (dt / 2)). set (h2 := s2 * sqrt (dt / 2)).
      set (q1 := step_p CRR b s1 (dt / 2)). set (q2 := step_p CRR b s2 (dt / 2)).
      assert (E : forall g x, cvx g -> 0 < x -> Ex (two q1 (exp h1) (exp (- h1))) g x <= Ex (two q2 (exp h2) (exp (- h2))) g x) by exact E2.
      pose proof (weights_p _ _ _ _ Hh) as P1. pose proof (weights_p _ _ _ _ W2) as P2. fold q1 in P1. fold q2 in P2.
      pose proof (exp_pos h1). pose proof (exp_pos (- h1)). pose proof (exp_pos h2). pose proof (exp_pos (- h2)).
      eapply Rle_trans; [|apply E; [apply keep_cvx; auto|auto]].
      apply Ex_mono; [intros a [<-|[<-|[]]]; cbn [fst]; lra|].
      intros a Ha. apply E; auto. destruct Ha as [<-|[<-|[]]]; cbn [snd]; apply Rmult_lt_0_compat; auto.
Qed.

(** JR and TIAN: the moves are proportional to the forward, the weights do not depend on the carry *)
Lemma scaled k sigma dt : k <> CRR -> 0 < dt -> 0 < sigma -> exists p u d, 0 <= p <= 1 /\ 0 < u /\ 0 < d /\
  forall b, moves (Bi k) b sigma dt = two p (exp (b * dt) * u) (exp (b * dt) * d).
Proof.
  intros Hk Hd Hs. destruct k; [easy| |].
  - exists (1 / 2), (exp (- (sigma ^ 2 / 2) * dt + sigma * sqrt dt)), (exp (- (sigma ^ 2 / 2) * dt - sigma * sqrt dt)).
    split; [lra|]. split; [apply exp_pos|]. split; [apply exp_pos|]. intro b.
    unfold moves, two. cbn [step_p step_u step_d]. rewrite <- !exp_plus.
    replace (b * dt + (- (sigma ^ 2 / 2) * dt + sigma * sqrt dt)) with ((b - sigma ^ 2 / 2) * dt + sigma * sqrt dt) by ring.
    replace (b * dt + (- (sigma ^ 2 / 2) * dt - sigma * sqrt dt)) with ((b - sigma ^ 2 / 2) * dt - sigma * sqrt dt) by ring.
    reflexivity.
  - set (V := exp (sigma ^ 2 * dt)). pose proof (V_ge sigma dt Hd) as HV. fold V in HV.
    destruct (jr_tian_weights 0 sigma dt Hd ltac:(lra)) as (_ & W & A1 & A2).
    rewrite tian_u', tian_d' in *. fold V in A1, A2. rewrite Rmult_0_l, exp_0, !Rmult_1_l in *.
    exists (step_p TIAN 0 sigma dt), (tw V), (ty V). split; [now apply weights_p|]. split; [lra|]. split; [lra|].
    intro b. unfold moves, two. rewrite tian_u', tian_d'. fold V.
    assert (E : step_p TIAN b sigma dt = step_p TIAN 0 sigma dt).
    { cbn [step_p]. rewrite !tian_u', !tian_d'. fold V. rewrite Rmult_0_l, exp_0. pose proof (exp_pos (b * dt)).
      rewrite <- Rmult_minus_distr_l. replace (exp (b * dt) - exp (b * dt) * ty V) with (exp (b * dt) * (1 - ty V)) by ring.
      rewrite !Rmult_1_l. assert (tw V - ty V <> 0) by lra. set (w := tw V - ty V) in *. field. lra. }
    now rewrite E.
Qed.

(** more carry, one step *)
Lemma step_carry c b1 b2 s dt :
  0 < dt -> 0 < s -> b1 <= b2 -> weights_ok c b1 s dt -> weights_ok c b2 s dt ->
  forall g x, inc g -> 0 < x -> Ex (moves c b1 s dt) g x <= Ex (moves c b2 s dt) g x.
Proof.
  intros Hd Hs Hb W1 W2.
  assert (C : forall dt, 0 < dt ->
    forall g x, inc g -> 0 < x -> Ex (moves (Bi CRR) b1 s dt) g x <= Ex (moves (Bi CRR) b2 s dt) g x).
  { clear - Hs Hb. intros dt Hd g x Hg Hx. pose proof (crr_ud b1 s dt Hd Hs).
    change (Ex (two (step_p CRR b1 s dt) (step_u CRR b1 s dt) (step_d CRR b1 s dt)) g x <=
            Ex (two (step_p CRR b2 s dt) (step_u CRR b1 s dt) (step_d CRR b1 s dt)) g x).
    apply two_shift; auto; try lra. unfold step_p.
    change (step_d CRR b2 s dt) with (step_d CRR b1 s dt). change (step_u CRR b2 s dt) with (step_u CRR b1 s dt).
    apply Rmult_le_compat_r; [left; apply Rinv_0_lt_compat; lra|].
    assert (exp (b1 * dt) <= exp (b2 * dt)) by (apply exp_le_mono; nra). lra. }
  assert (Sc : forall k g x, k <> CRR -> inc g -> 0 < x -> Ex (moves (Bi k) b1 s dt) g x <= Ex (moves (Bi k) b2 s dt) g x).
  { intros k g x Hk Hg Hx. destruct (scaled k s dt Hk Hd Hs) as (p & u & d & Hp & Hu & Hdd & E). rewrite !E, !Ex_two.
    assert (B : exp (b1 * dt) <= exp (b2 * dt)) by (apply exp_le_mono; nra). pose proof (exp_pos (b1 * dt)).
    assert (M : forall v, 0 < v -> g (x * (exp (b1 * dt) * v)) <= g (x * (exp (b2 * dt) * v))).
    { intros v Hv. apply Hg; [repeat apply Rmult_lt_0_compat; auto|].
      apply Rmult_le_compat_l; [lra|]. apply Rmult_le_compat_r; lra. }
    pose proof (M u Hu) as A. pose proof (M d Hdd) as A'.
    apply (Rmult_le_compat_l p) in A; [|lra]. apply (Rmult_le_compat_l (1 - p)) in A'; lra. }
  destruct c as [[| |]|]; intros g x Hg Hx; [now apply C|now apply Sc|now apply Sc|].
  rewrite !Ex_tri. cbv zeta. set (h := s * sqrt (dt / 2)).
  set (q1 := step_p CRR b1 s (dt / 2)). set (q2 := step_p CRR b2 s (dt / 2)).
  assert (E : forall g x, inc g -> 0 < x -> Ex (two q1 (exp h) (exp (- h))) g x <= Ex (two q2 (exp h) (exp (- h))) g x)
    by exact (C (dt / 2) ltac:(lra)).
  pose proof (weights_p _ _ _ _ (tri_half _ _ _ Hd Hs W1)) as P1. pose proof (weights_p _ _ _ _ (tri_half _ _ _ Hd Hs W2)) as P2.
  fold q1 in P1. fold q2 in P2. pose proof (exp_pos h). pose proof (exp_pos (- h)).
  eapply Rle_trans; [|apply E; [apply keep_inc; auto|auto]].
  apply Ex_mono; [intros a [<-|[<-|[]]]; cbn [fst]; lra|].
  intros a Ha. apply E; auto. destruct Ha as [<-|[<-|[]]]; cbn [snd]; apply Rmult_lt_0_compat; auto.
Qed.

(** more interest at a given dividend yield q, one step *)
Lemma step_yield c q r1 r2 s dt :
  0 < dt -> 0 < s -> r1 <= r2 -> weights_ok c (r1 - q) s dt -> weights_ok c (r2 - q) s dt ->
  forall g x, rinc g -> 0 < x ->
  exp (- r1 * dt) * Ex (moves c (r1 - q) s dt) g x <= exp (- r2 * dt) * Ex (moves c (r2 - q) s dt) g x.
Proof.
  intros Hd Hs Hb W1 W2.
  assert (C : forall dt, 0 < dt -> forall g x, rinc g -> 0 < x ->
    exp (- r1 * dt) * Ex (moves (Bi CRR) (r1 - q) s dt) g x <= exp (- r2 * dt) * Ex (moves (Bi CRR) (r2 - q) s dt) g x).
  { clear - Hs Hb. intros dt Hd g x Hg Hx. pose proof (crr_ud 0 s dt Hd Hs) as U.
    change (exp (- r1 * dt) * Ex (two (step_p CRR (r1 - q) s dt) (step_u CRR 0 s dt) (step_d CRR 0 s dt)) g x <=
            exp (- r2 * dt) * Ex (two (step_p CRR (r2 - q) s dt) (step_u CRR 0 s dt) (step_d CRR 0 s dt)) g x).
    rewrite !Ex_two. unfold step_p.
    change (step_d CRR (r1 - q) s dt) with (step_d CRR 0 s dt). change (step_u CRR (r1 - q) s dt) with (step_u CRR 0 s dt).
    change (step_d CRR (r2 - q) s dt) with (step_d CRR 0 s dt). change (step_u CRR (r2 - q) s dt) with (step_u CRR 0 s dt).
    set (u := step_u CRR 0 s dt) in *. set (d := step_d CRR 0 s dt) in *.
    assert (E : forall r, exp (- r * dt) * exp ((r - q) * dt) = exp (- q * dt)) by (intro; rewrite <- exp_plus; f_equal; ring).
    assert (D : exp (- r2 * dt) <= exp (- r1 * dt)) by (apply exp_le_mono; nra).
    pose proof (Hg (x * d) (x * u) ltac:(apply Rmult_lt_0_compat; lra) ltac:(apply Rmult_le_compat_l; lra)) as G.
    set (gu := g (x * u)) in *. set (gd := g (x * d)) in *.
    assert (G' : u * gd <= d * gu) by (apply Rmult_le_reg_l with x; lra).
    assert (X : forall r, exp (- r * dt) * ((exp ((r - q) * dt) - d) / (u - d) * gu + (1 - (exp ((r - q) * dt) - d) / (u - d)) * gd)
      = exp (- q * dt) * (gu - gd) / (u - d) + exp (- r * dt) * ((u * gd - d * gu) / (u - d))).
    { intro r. rewrite <- (E r). field. lra. }
    rewrite !X. apply Rplus_le_compat_l.
    assert ((u * gd - d * gu) / (u - d) <= 0).
    { rewrite <- (Rmult_0_l (/ (u - d))). apply Rmult_le_compat_r; [left; apply Rinv_0_lt_compat; lra|lra]. }
    nra. }
  assert (Sc : forall k g x, k <> CRR -> rinc g -> 0 < x ->
    exp (- r1 * dt) * Ex (moves (Bi k) (r1 - q) s dt) g x <= exp (- r2 * dt) * Ex (moves (Bi k) (r2 - q) s dt) g x).
  { intros k g x Hk Hg Hx. destruct (scaled k s dt Hk Hd Hs) as (p & u & d & Hp & Hu & Hdd & E). rewrite !E, !Ex_two.
    assert (F : forall r, exp (- r * dt) = exp (- q * dt) * / exp ((r - q) * dt)).
    { intro r. rewrite <- exp_Ropp, <- exp_plus. f_equal. ring. }
    rewrite (F r1), (F r2). set (e1 := exp ((r1 - q) * dt)). set (e2 := exp ((r2 - q) * dt)).
    assert (B : e1 <= e2) by (apply exp_le_mono; nra). pose proof (exp_pos ((r1 - q) * dt)) as P. fold e1 in P.
    assert (M : forall v, 0 < v -> / e1 * g (x * (e1 * v)) <= / e2 * g (x * (e2 * v))).
    { intros v Hv. pose proof (Hg (x * (e1 * v)) (x * (e2 * v)) ltac:(repeat apply Rmult_lt_0_compat; auto)
        ltac:(apply Rmult_le_compat_l; [lra|]; apply Rmult_le_compat_r; lra)) as G.
      apply Rmult_le_reg_l with (x * v * e1 * e2); [repeat apply Rmult_lt_0_compat; lra|].
      replace (x * v * e1 * e2 * (/ e1 * g (x * (e1 * v)))) with (x * (e2 * v) * g (x * (e1 * v))) by (field; lra).
      replace (x * v * e1 * e2 * (/ e2 * g (x * (e2 * v)))) with (x * (e1 * v) * g (x * (e2 * v))) by (field; lra). exact G. }
    rewrite !Rmult_assoc. apply Rmult_le_compat_l; [left; apply exp_pos|].
    pose proof (M u Hu) as A. pose proof (M d Hdd) as A'.
    apply (Rmult_le_compat_l p) in A; [|lra]. apply (Rmult_le_compat_l (1 - p)) in A'; lra. }
  destruct c as [[| |]|]; intros g x Hg Hx; [now apply C|now apply Sc|now apply Sc|].
  rewrite !Ex_tri. cbv zeta. set (h := s * sqrt (dt / 2)).
  set (q1 := step_p CRR (r1 - q) s (dt / 2)). set (q2 := step_p CRR (r2 - q) s (dt / 2)).
  assert (E : forall g x, rinc g -> 0 < x ->
    exp (- r1 * (dt / 2)) * Ex (two q1 (exp h) (exp (- h))) g x <= exp (- r2 * (dt / 2)) * Ex (two q2 (exp h) (exp (- h))) g x)
    by exact (C (dt / 2) ltac:(lra)).
  pose proof (weights_p _ _ _ _ (tri_half _ _ _ Hd Hs W1)) as P1. pose proof (weights_p _ _ _ _ (tri_half _ _ _ Hd Hs W2)) as P2.
  fold q1 in P1. fold q2 in P2. pose proof (exp_pos h). pose proof (exp_pos (- h)).
  assert (D : forall r, exp (- r * dt) = exp (- r * (dt / 2)) * exp (- r * (dt / 2))) by (intro; rewrite <- exp_plus; f_equal; field).
  rewrite (D r1), (D r2). set (D1 := exp (- r1 * (dt / 2))) in *. set (D2 := exp (- r2 * (dt / 2))) in *.
  assert (0 < D1 /\ 0 < D2) as [HD1 HD2] by (split; apply exp_pos).
  set (T1 := Ex (two q1 (exp h) (exp (- h)))) in *. set (T2 := Ex (two q2 (exp h) (exp (- h)))) in *.
  assert (K2 : rinc (T2 g)) by (apply keep_rinc; auto).
  rewrite !Rmult_assoc. apply Rle_trans with (D1 * (D2 * T1 (T2 g) x)).
  - apply Rmult_le_compat_l; [lra|].
    assert (L : forall D f, D * T1 f x = T1 (fun y => D * f y) x) by (intros; unfold T1; rewrite !Ex_two; ring).
    rewrite !L. unfold T1 at 1 3. apply Ex_mono; [intros a [<-|[<-|[]]]; cbn [fst]; lra|].
    intros a Ha. apply E; auto. destruct Ha as [<-|[<-|[]]]; cbn [snd]; apply Rmult_lt_0_compat; auto.
  - replace (D1 * (D2 * T1 (T2 g) x)) with (D2 * (D1 * T1 (T2 g) x)) by ring.
    apply Rmult_le_compat_l; [lra|]. now apply E.
Qed.
