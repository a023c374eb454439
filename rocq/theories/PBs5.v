(** The Bjerksund-Stensland call is the value of exercising when the price reaches the trigger (C80). *)
From Coq Require Import Reals ZArith QArith Qreals String List Bool Lra Lia.
From Coquelicot Require Import Coquelicot.
From Verif Require Import Num Py MBase MVanilla MTrees MAmerican SMonte SHeston SSpread2 SAmer SBs PTrees2 PGauss PCnd PCnd2 PBlack PGbs PVanilla SAmerican PBs PHeston PHeston2 PExpect PExpect2 PClt PMargrabe PMonte6 PTrees3 PTrees4 PConv PAmer3 PBs2 PBs3 PBs4.
Open Scope R_scope.

(** ** exponentially Lipschitz functions *)
Definition lipx (f : R -> R) : Prop := exists c q, 0 <= c /\ 0 <= q /\ lip c q f.
Lemma lip_up c q q' f : 0 <= c -> q <= q' -> lip c q f -> lip c q' f.
Proof.
  intros Hc Hq [A L]. assert (E : forall w, exp (q * Rabs w) <= exp (q' * Rabs w)) by (intro w; apply exp_le, Rmult_le_compat_r; [apply Rabs_pos|exact Hq]). split.
  - intro w. eapply Rle_trans; [apply A|]. apply Rmult_le_compat_l; auto.
  - intros w w'. eapply Rle_trans; [apply L|]. apply Rmult_le_compat_l; [apply Rmult_le_pos; [exact Hc|apply Rabs_pos]|]. apply Rplus_le_compat; apply E.
Qed.
Lemma lipx_lin a a' f f' : lipx f -> lipx f' -> lipx (fun x => a * f x + a' * f' x).
Proof.
  intros (c & q & Hc & Hq & H) (c' & q' & Hc' & Hq' & H'). pose proof (Rabs_pos a). pose proof (Rabs_pos a'). exists (Rabs a * c + Rabs a' * c'), (Rmax q q'). pose proof (Rmax_l q q'). pose proof (Rmax_r q q').
  destruct (lip_up c q (Rmax q q') f Hc ltac:(lra) H) as [A L]. destruct (lip_up c' q' (Rmax q q') f' Hc' ltac:(lra) H') as [A' L']. 
  assert (0 <= Rabs a * c) by (apply Rmult_le_pos; lra). assert (0 <= Rabs a' * c') by (apply Rmult_le_pos; lra). split; [lra|]. split; [lra|]. split.
  - intro w. eapply Rle_trans; [apply Rabs_triang|]. rewrite !Rabs_mult. specialize (A w). specialize (A' w).
    apply (Rmult_le_compat_l (Rabs a)) in A; [|lra]. apply (Rmult_le_compat_l (Rabs a')) in A'; [|lra]. lra.
  - intros w w'. replace (a * f w + a' * f' w - (a * f w' + a' * f' w')) with (a * (f w - f w') + a' * (f' w - f' w')) by ring. eapply Rle_trans; [apply Rabs_triang|]. rewrite !Rabs_mult. specialize (L w w'). specialize (L' w w').
    apply (Rmult_le_compat_l (Rabs a)) in L; [|lra]. apply (Rmult_le_compat_l (Rabs a')) in L'; [|lra]. lra.
Qed.
Lemma lipx_ext f f' : (forall x, f x = f' x) -> lipx f -> lipx f'.
Proof. intros H (c & q & Hc & Hq & A & L). exists c, q. split; [exact Hc|]. split; [exact Hq|]. split; intros; rewrite <- !H; auto. Qed.
Lemma lipx_comp m a f : (forall x y, Rabs (m x - m y) <= Rabs (x - y)) -> (forall x, Rabs (m x) <= Rabs x + a) -> lipx f -> lipx (fun x => f (m x)).
Proof.
  intros Hm Ha (c & q & Hc & Hq & A & L). exists (c * exp (q * a)), q. pose proof (exp_pos (q * a)) as HE.
  assert (E : forall x, exp (q * Rabs (m x)) <= exp (q * a) * exp (q * Rabs x)). { intro x. rewrite <- exp_plus. apply exp_le. rewrite <- Rmult_plus_distr_l. apply Rmult_le_compat_l; [exact Hq|]. specialize (Ha x). lra. }
  split; [apply Rmult_le_pos; lra|]. split; [exact Hq|]. split.
  - intro w. eapply Rle_trans; [apply A|]. rewrite Rmult_assoc. apply Rmult_le_compat_l; [exact Hc|apply E].
  - intros w w'. eapply Rle_trans; [apply L|]. pose proof (E w). pose proof (E w'). pose proof (exp_pos (q * Rabs w)). pose proof (exp_pos (q * Rabs w')). pose proof (exp_pos (q * Rabs (m w))). pose proof (exp_pos (q * Rabs (m w'))).
    apply Rle_trans with (c * Rabs (w - w') * (exp (q * a) * (exp (q * Rabs w) + exp (q * Rabs w')))); [|right; ring].
    apply Rmult_le_compat; [apply Rmult_le_pos; [exact Hc|apply Rabs_pos]|lra| |lra]. apply Rmult_le_compat_l; [exact Hc|apply Hm].
Qed.
Lemma lipx_const a : lipx (fun _ => a).
Proof. exists (Rabs a), 0. pose proof (Rabs_pos a). split; [lra|]. split; [lra|]. split; intros; rewrite ?Rmult_0_l, ?exp_0; [lra|]. rewrite Rminus_diag_eq, Rabs_R0 by reflexivity. apply Rmult_le_pos; [apply Rmult_le_pos; [lra|apply Rabs_pos]|lra]. Qed.
Lemma lipx_pay K : lipx (fun y => Rmax (exp y - K) 0).
Proof.
  exists (1 + Rabs K), 1. pose proof (Rabs_pos K). split; [lra|]. split; [lra|]. 
  assert (E : forall y, exp y <= exp (1 * Rabs y)) by (intro y; apply exp_le; rewrite Rmult_1_l; apply Rle_abs). assert (E1 : forall y, 1 <= exp (1 * Rabs y)) by (intro y; rewrite <- exp_0 at 1; apply exp_le; pose proof (Rabs_pos y); lra).
  split.
  - intro w. pose proof (E w). pose proof (E1 w). pose proof (Rle_abs (- K)) as Z. rewrite Rabs_Ropp in Z. pose proof (exp_pos w). rewrite Rabs_pos_eq by apply Rmax_r. apply Rmax_lub; [nra|]. apply Rmult_le_pos; lra.
  - intros w w'. eapply Rle_trans with (Rabs (exp w - exp w')).
    + unfold Rmax. destruct (Rle_dec (exp w - K) 0), (Rle_dec (exp w' - K) 0); unfold Rabs; repeat destruct (Rcase_abs _); lra.
    + eapply Rle_trans; [apply exp_lip|]. pose proof (E w). pose proof (E w'). pose proof (exp_pos w). pose proof (exp_pos w'). pose proof (Rabs_pos (w - w')).
      apply Rmult_le_compat; [lra|lra| |lra]. nra.
Qed.
Lemma npdf_le_1 x : npdf x <= 1.
Proof. eapply Rle_trans; [apply npdf_le_0|]. rewrite npdf_0. rewrite <- Rinv_1. apply Rinv_le_contravar; [lra|]. rewrite <- sqrt_1 at 1. apply sqrt_le_1_alt. pose proof PI2_3_2. unfold PI2 in *. lra. Qed.
Lemma Phi_lip x y : Rabs (Phi x - Phi y) <= Rabs (x - y).
Proof.
  assert (P : forall x y, x <= y -> Phi y - Phi x <= y - x).
  { clear. intros x y H. destruct (MVT_gen Phi x y npdf) as (c & Hc & E).
    - intros; apply Phi_derive.
    - intros z _. apply continuity_pt_filterlim. apply (ex_derive_continuous Phi). eexists. apply Phi_derive.
    - rewrite E. pose proof (npdf_le_1 c). pose proof (npdf_pos c). nra. }
  assert (Q : forall x y, x <= y -> Phi x <= Phi y) by (intros u v [H| ->]; [apply Rlt_le, Phi_incr, H|lra]).
  destruct (Rle_or_lt x y) as [H|H].
  - specialize (P x y H). specialize (Q x y H). rewrite !Rabs_left1 by lra. lra.
  - specialize (P y x ltac:(lra)). specialize (Q y x ltac:(lra)). rewrite !Rabs_pos_eq by lra. lra.
Qed.
Lemma lipx_Phi a o : 0 < o -> lipx (fun x => Phi ((x - a) / o)).
Proof.
  intro Ho. exists (1 + / o), 0. assert (0 < / o) by now apply Rinv_0_lt_compat. split; [lra|]. split; [lra|]. split; intros; rewrite ?Rmult_0_l, ?exp_0.
  - pose proof (Phi_gt_0 ((w - a) / o)). pose proof (Phi_lt_1 ((w - a) / o)). rewrite Rabs_pos_eq by lra. lra.
  - eapply Rle_trans; [apply Phi_lip|]. replace ((w - a) / o - (w' - a) / o) with ((w - w') * / o) by (unfold Rdiv; ring). rewrite Rabs_mult, (Rabs_pos_eq (/ o)) by lra. pose proof (Rabs_pos (w - w')). nra.
Qed.
Lemma lipx_Gs o f : 0 < o -> lipx f -> lipx (Gs o f) /\ forall w, is_mean (fun z => f (w + o * z)) (Gs o f w).
Proof.
  intros Ho (c & q & Hc & Hq & H). split; [|intro w; apply (Gs_mean c q); try assumption; lra].
  destruct (mean_wt (q * o + 1) ltac:(assert (0 <= q * o) by (apply Rmult_le_pos; lra); lra)) as (M & HM0 & HM). exists (c * M), q. split; [apply Rmult_le_pos; lra|]. split; [exact Hq|]. split.
  - intro w. eapply Rle_trans; [apply (Gs_bound c q f o w o M Hc Hq ltac:(lra) H HM)|]. right. ring.
  - intros w w'. eapply Rle_trans; [apply (Gs_lip_loc c q f o w w' o M Hc Hq ltac:(lra) H HM)|]. right. ring.
Qed.

(** ** the strategy has a value on every grid *)
Section Exists.
Variables K l r b s h : R.
Hypothesis Hs : 0 < s.
Hypothesis Hh : 0 < h.
Let nu := b - s ^ 2 / 2.
Let o := s * sqrt h.
Let Ho : 0 < o. Proof. apply Rmult_lt_0_compat; [exact Hs|now apply sqrt_lt_R0]. Qed.
Let pay (y : R) := Rmax (exp y - K) 0.
Lemma step_ex G J : lipx G -> exists c, lipx c /\ forall y, is_mean (fun z => exp (- r * h) * (G (y + (nu * h + s * (sqrt h * z))) + J * (if Rle_dec l (y + (nu * h + s * (sqrt h * z))) then 1 else 0))) (c y).
Proof.
  intro HG. destruct (lipx_Gs o G Ho HG) as [LG MG]. exists (fun y => exp (- r * h) * (1 * Gs o G (y + nu * h) + J * Phi ((y + nu * h - l) / o))). split.
  - assert (P := lipx_lin (exp (- r * h)) 0 _ _ (lipx_lin 1 J _ _ (lipx_comp (fun y => y + nu * h) (Rabs (nu * h)) _ ltac:(intros; right; f_equal; ring) ltac:(intro; apply Rabs_triang) LG) (lipx_Phi (l - nu * h) o Ho)) (lipx_const 0)).
    eapply lipx_ext; [|exact P]. intro y. cbv beta. replace (y - (l - nu * h)) with (y + nu * h - l) by ring. ring.
  - intro y. set (z0 := (l - y - nu * h) / o). assert (Ez0 : o * z0 = l - y - nu * h) by (unfold z0; field; lra).
    assert (P := mean_scal _ _ (exp (- r * h)) (is_mean_lin _ _ _ _ 1 J (MG (y + nu * h)) (mean_indicator z0))).
    replace (- z0) with ((y + nu * h - l) / o) in P by (unfold z0; field; lra). eapply is_mean_ext; [|exact P]. intro z. cbv beta. f_equal.
    replace (y + nu * h + o * z) with (y + (nu * h + s * (sqrt h * z))) by (unfold o; ring). rewrite Rmult_1_l. f_equal. f_equal.
    assert (E : l <= y + (nu * h + s * (sqrt h * z)) <-> z0 <= z).
    { split; intro H.
      - apply Rmult_le_reg_l with o; [exact Ho|]. rewrite Ez0. unfold o. lra.
      - apply (Rmult_le_compat_l o) in H; [|lra]. rewrite Ez0 in H. unfold o in H. lra. }
    destruct (Rle_dec z0 z), (Rle_dec l _); tauto || lra.
Qed.
Fixpoint stopf (k : nat) (y : R) : R :=
  match k with
  | O => pay y
  | S k => if Rle_dec l y then pay y else Tm (fun z => exp (- r * h) * stopf k (y + (nu * h + s * (sqrt h * z))))
  end.
Lemma exercise_ex k : exists G J, lipx G /\ (forall y, stopf k y = G y + J * (if Rle_dec l y then 1 else 0)) /\ forall y, exercise_at (call_put true K) (exp l) r b s h k (exp y) (G y + J * (if Rle_dec l y then 1 else 0)).
Proof.
  induction k as [|k (G & J & HG & HF & HE)].
  - exists pay, 0. split; [apply lipx_pay|]. split; [intro y; cbn [stopf]; ring|]. intro y. cbn [exercise_at]. unfold call_put, pay. ring.
  - destruct (step_ex G J HG) as (c & Lc & Hc).
    exists (fun y => c (Rmin y l) + (pay (Rmax y l) - pay l)), (pay l - c l). split; [|split].
    + assert (P := lipx_lin 1 1 _ _ (lipx_comp (fun y => Rmin y l) (Rabs l) c ltac:(intros; unfold Rmin; destruct (Rle_dec x l), (Rle_dec y l); unfold Rabs; repeat destruct (Rcase_abs _); lra) ltac:(intro; unfold Rmin; destruct (Rle_dec x l); pose proof (Rabs_pos x); pose proof (Rabs_pos l); lra) Lc)
        (lipx_lin 1 (-1) _ _ (lipx_comp (fun y => Rmax y l) (Rabs l) pay ltac:(intros; unfold Rmax; destruct (Rle_dec x l), (Rle_dec y l); unfold Rabs; repeat destruct (Rcase_abs _); lra) ltac:(intro; unfold Rmax; destruct (Rle_dec x l); pose proof (Rabs_pos x); pose proof (Rabs_pos l); lra) (lipx_pay K)) (lipx_const (pay l)))).
      eapply lipx_ext; [|exact P]. intro y. cbv beta. ring.
    + intro y. cbn [stopf]. destruct (Rle_dec l y) as [H|H]; [rewrite Rmin_right, Rmax_left by lra; ring|]. rewrite Rmin_left, Rmax_right by lra.
      replace (c y + (pay l - pay l) + (pay l - c l) * 0) with (c y) by ring. apply Tm_val. eapply is_mean_ext; [|exact (Hc y)]. intro z. cbv beta. now rewrite HF.
    + intro y. cbn [exercise_at]. destruct (Rle_dec l y) as [H|H].
      * destruct (Rle_dec (exp l) (exp y)) as [_|N]; [|exfalso; apply N; now apply exp_le]. rewrite Rmin_right, Rmax_left by lra. unfold call_put, pay. ring.
      * destruct (Rle_dec (exp l) (exp y)) as [N|_]; [exfalso; assert (exp y < exp l) by (apply exp_increasing; lra); lra|]. rewrite Rmin_left, Rmax_right by lra.
        exists (fun x => G (ln x) + J * (if Rle_dec l (ln x) then 1 else 0)). split.
        -- intros x Hx. rewrite <- (exp_ln x Hx) at 1. apply HE.
        -- replace (c y + (pay l - pay l) + (pay l - c l) * 0) with (c y) by ring. eapply is_mean_ext; [|exact (Hc y)]. intro z. cbv beta.
           assert (El : lognormal1 (exp y) b s h z = exp (y + (nu * h + s * (sqrt h * z)))) by (unfold lognormal1; symmetry; apply exp_plus). rewrite El, ln_exp. reflexivity.
Qed.
Lemma stopf_value k y : exercise_at (call_put true K) (exp l) r b s h k (exp y) (stopf k y).
Proof. destruct (exercise_ex k) as (G & J & _ & HF & HE). rewrite HF. apply HE. Qed.
End Exists.

(** ** convergence *)
Section Converge.
Variables r b s k l t : R.
Hypothesis Hs : 0 < s.
Hypothesis Ht : 0 < t.
Hypothesis Hb : b < r.
Hypothesis Hkl : k < l.
Let K := exp k.
Let nu := b - s ^ 2 / 2.
Let V := VF r b s k l.
Let ex (m j : nat) (y v : R) := exercise_at (call_put true K) (exp l) r b s (t / INR m) j (exp y) v.
Lemma ex_above m j y v : l <= y -> ex m j y v -> v = exp y - K.
Proof.
  intros Hy H. assert (L : exp l <= exp y) by now apply exp_le. assert (E : K < exp l) by (unfold K; now apply exp_increasing).
  assert (P : v = call_put true K (exp y)). { unfold ex in H. destruct j; cbn [exercise_at] in H; [exact H|]. destruct (Rle_dec (exp l) (exp y)); [exact H|lra]. }
  rewrite P. unfold call_put. apply Rmax_left. lra.
Qed.
Lemma ex_step m j y v : y < l -> ex m (S j) y v -> exists f, (forall y', ex m j y' (f y')) /\ is_mean (fun z => exp (- r * (t / INR m)) * f (y + (nu * (t / INR m) + s * (sqrt (t / INR m) * z)))) v.
Proof.
  intros Hy H. unfold ex in *. cbn [exercise_at] in H. destruct (Rle_dec (exp l) (exp y)) as [N|_]; [exfalso; assert (exp y < exp l) by (now apply exp_increasing); lra|].
  destruct H as (f & Hf & Hc). exists (fun y => f (exp y)). split; [intro y'; apply Hf, exp_pos|]. eapply is_mean_ext; [|exact Hc]. intro z. cbv beta. do 2 f_equal. unfold lognormal1. symmetry. apply exp_plus.
Qed.
Lemma strategy x (B : nat -> R) : x < l -> (forall m, (0 < m)%nat -> ex m m x (B m)) -> is_lim_seq B (V t x).
Proof.
  intros Hx HB. destruct (VF_lip r b s k l) as (L & p & HL & Hp & Hl).
  pose proof (VF_step r b s k l Hs) as Hm. pose proof (VF_bd r b s k l Hs Hb Hkl) as Hbd. 
  destruct (beyond r b s t K l Hs Ht V Hm L p HL Hp Hl Hbd) as (A & HA & Hbey). pose proof (exp_pos l) as Hel.
  set (A' := A + exp l). set (p' := p + 1). assert (HA' : 0 <= A') by (unfold A'; lra). assert (Hp' : 0 <= p') by (unfold p'; lra).
  assert (W : forall d, 0 <= d -> A * d * exp (p * d) + (exp (l + d) - exp l) <= A' * d * exp (p' * d)).
  { intros d Hd. assert (E1 : exp (p * d) <= exp (p' * d)) by (apply exp_le; unfold p'; nra). assert (E2 : exp d <= exp (p' * d)) by (apply exp_le; unfold p'; nra).
    assert (E3 : exp (l + d) - exp l <= exp l * (d * exp d)). { rewrite exp_plus. pose proof (exp_ineq1_le (- d)) as Z. rewrite exp_Ropp in Z. pose proof (exp_pos d). assert (1 - d * exp d <= / exp d * exp d - 0 - d * exp d + 0) by (rewrite Rinv_l; lra). assert ((1 + - d) * exp d <= / exp d * exp d) by (apply Rmult_le_compat_r; lra). rewrite Rinv_l in H1 by lra. replace (exp l * exp d - exp l) with (exp l * (exp d - 1)) by ring. apply Rmult_le_compat_l; lra. }
    assert (0 <= A * d) by (apply Rmult_le_pos; lra). assert (A * d * exp (p * d) <= A * d * exp (p' * d)) by (apply Rmult_le_compat_l; lra).
    assert (exp l * (d * exp d) <= exp l * (d * exp (p' * d))) by (apply Rmult_le_compat_l; [lra|]; apply Rmult_le_compat_l; lra). unfold A'. lra. }
  assert (Bd : forall m j y v, (0 < m)%nat -> INR j * (t / INR m) <= t -> l <= y -> ex m j y v -> Rabs (V (INR j * (t / INR m)) y - v) <= A' * (y - l) * exp (p' * (y - l))).
  { intros m j y v Hm0 Hj Hy Hv. apply ex_above in Hv; [|exact Hy]. subst v. assert (HI : 0 < INR m) by now apply lt_0_INR. assert (0 < t / INR m) by (apply Rdiv_lt_0_compat; lra). pose proof (pos_INR j).
    assert (0 <= INR j * (t / INR m)) by (apply Rmult_le_pos; lra). pose proof (Hbey (INR j * (t / INR m)) (y - l) ltac:(lra) ltac:(lra)) as Z. pose proof (W (y - l) ltac:(lra)) as W0. replace (l + (y - l)) with y in * by ring.
    assert (exp l <= exp y) by now apply exp_le. apply Rabs_le_between in Z. apply Rabs_le_between. lra. }
  assert (End : forall m y v, y < l -> ex m 0%nat y v -> V 0 y = v). { intros m y v Hy Hv. unfold ex in Hv. cbn [exercise_at] in Hv. rewrite Hv. unfold V. now rewrite VF_end. }
  destruct (core r b s t l Hs Ht V Hm A' p' HA' Hp') as (C & HC & HX).
  destruct (core r b s t l Hs Ht (fun u x => - V u x)) with (A := A') (p := p') as (C2 & HC2 & HX2); [|exact HA'|exact Hp'|].
  { intros u v y Hu Hv. replace (- V (u + v) y) with (-1 * V (u + v) y) by ring. eapply is_mean_ext; [|exact (mean_scal _ _ (-1) (Hm u v y Hu Hv))]. intro z. cbv beta. unfold V. ring. }
  apply is_lim_seq_spec. intros [g Hg]. cbn [pos].
  destruct (small_lim _ C g HC (Er r t Ht) Hg) as (e & n & He & Hsm). destruct (small_lim _ C2 g HC2 (Er r t Ht) Hg) as (e2 & n2 & He2 & Hsm2).
  exists (S (n + n2)). intros m Hmn. assert (Hm0 : (0 < m)%nat) by lia. specialize (Hsm m ltac:(lia) Hm0). specialize (Hsm2 m ltac:(lia) Hm0).
  pose proof (HX e m (ex m) He Hm0) as Y1. cbv zeta in Y1. pose proof (HX2 e2 m (fun j y v => ex m j y (- v)) He2 Hm0) as Y2. cbv zeta in Y2.
  assert (Z1 : V t x <= B m + exp (Rabs r * t) * (e + C / e ^ 3 / INR m)).
  { apply Y1; auto.
    - intros j y v Hj Hy Hv. pose proof (Bd m j y v Hm0 Hj Hy Hv) as Z. apply Rabs_le_between in Z. lra.
    - intros y v Hy Hv. rewrite (End m y v Hy Hv). lra.
    - intros j y v Hy Hv. destruct (ex_step m j y v Hy Hv) as (f & Hf & Hc). exists f, v. split; [exact Hf|]. split; [exact Hc|lra]. }
  assert (Z2 : - V t x <= - B m + exp (Rabs r * t) * (e2 + C2 / e2 ^ 3 / INR m)).
  { apply Y2; auto.
    - intros j y v Hj Hy Hv. pose proof (Bd m j y (- v) Hm0 Hj Hy Hv) as Z. apply Rabs_le_between in Z. lra.
    - intros y v Hy Hv. rewrite (End m y (- v) Hy Hv). lra.
    - intros j y v Hy Hv. destruct (ex_step m j y (- v) Hy Hv) as (f & Hf & Hc). exists (fun y => - f y), v. split; [intro y'; rewrite Ropp_involutive; apply Hf|]. split; [|lra].
      replace v with (-1 * - v) by ring. eapply is_mean_ext; [|exact (mean_scal _ _ (-1) Hc)]. intro z. cbv beta. unfold nu. ring.
    - rewrite Ropp_involutive. now apply HB. }
  apply Rabs_def1; lra.
Qed.
End Converge.

(*@ C80_strategy | With exact normal distribution functions the Bjerksund-Stensland call (b < r, b t + 2 sigma sqrt t > 0) is exactly what the following strategy is worth: exercise when the price first reaches the reported trigger, otherwise at expiry. Observing the price at m equally spaced dates, the strategy has a value for every m, and these values converge to the price as m grows. *)
Lemma c80_strategy : forall S K t r b s, 0 < S -> 0 < K -> 0 < t -> 0 < s -> b < r -> 0 < b * t + 2 * s * sqrt t ->
  exists x I0 B, bs_call_F Phi (mkAmer S K t r b (Some s)) = Ok (x, Some I0) /\
    (forall m, (0 < m)%nat -> exercise_at (call_put true K) I0 r b s (t / INR m) m S (B m)) /\ is_lim_seq B x.
Proof.
  intros S K t r b s HS HK Ht Hs Hb H. pose proof (trig_bounds K t r b s HK Hs Hb H) as T. pose proof (B0_bounds K r b s HK Hs Hb) as B.
  set (I0 := trig K t r b s) in *. assert (HI : 0 < I0) by lra. assert (Hkl : ln K < ln I0) by (apply ln_increasing; lra).
  set (B' := fun m => if Rle_dec I0 S then S - K else stopf K (ln I0) r b s (t / INR m) m (ln S)).
  do 2 eexists. exists B'. split; [apply call_eq; assumption|]. fold I0. split.
  - intros m Hm. unfold B'. assert (HIm : 0 < INR m) by now apply lt_0_INR. destruct (Rle_dec I0 S) as [X|X].
    + destruct m; [lia|]. cbn [exercise_at]. destruct (Rle_dec I0 S); [|lra]. unfold call_put. rewrite Rmax_left by lra. reflexivity.
    + pose proof (stopf_value K (ln I0) r b s (t / INR m) Hs ltac:(apply Rdiv_lt_0_compat; lra) m (ln S)) as P. rewrite !exp_ln in P by assumption. exact P.
  - unfold B'. destruct (Rle_dec I0 S) as [X|X]; [apply is_lim_seq_const|].
    pose proof (VF_lower r b s (ln K) (ln I0) Hs Hb t S Ht HS) as E. rewrite !exp_ln in E by assumption. rewrite E.
    apply (strategy r b s (ln K) (ln I0) t Hs Ht Hb Hkl); [apply ln_increasing; lra|]. intros m Hm. assert (HIm : 0 < INR m) by now apply lt_0_INR.
    rewrite exp_ln by assumption. apply stopf_value; [exact Hs|]. apply Rdiv_lt_0_compat; lra.
Qed.

(*@ C80_strategy_unique | The value of the strategy is determined by the payoff, the level, the market and the dates: two numbers satisfying its definition are equal. *)
Lemma c80_unique : forall g I0 r b s dt k S v w, 0 < S -> exercise_at g I0 r b s dt k S v -> exercise_at g I0 r b s dt k S w -> v = w.
Proof.
  intros g I0 r b s dt k. induction k as [|k IH]; intros S v w HS; cbn [exercise_at]; [intros -> ->; reflexivity|].
  destruct (Rle_dec I0 S); [intros -> ->; reflexivity|]. intros (f & Hf & Hc) (f' & Hf' & Hc').
  rewrite <- (Tm_val _ _ Hc). apply Tm_val. eapply is_mean_ext; [|exact Hc']. intro z. cbv beta. f_equal. symmetry.
  assert (P : 0 < lognormal1 S b s dt z) by (unfold lognormal1; apply Rmult_lt_0_compat; [exact HS|apply exp_pos]).
  exact (IH _ _ _ P (Hf _ P) (Hf' _ P)).
Qed.
