(** The bivariate normal routine [_CBND] over the reals: it always returns a number, is symmetric in its two
    limits and has the right marginals with respect to the univariate routine. *)
From Coq Require Import Reals ZArith QArith Qreals List Bool Lra Lia.
From Verif Require Import Num Py MBase PCnd.
Open Scope R_scope.

Definition brho (rho : R) : R := if Reqb (Rabs rho) 1 then rho - / 10 ^ 12 * Rsgn rho else rho.
Lemma cbnd_rho_eq rho : cbnd_rho rho = brho rho.
Proof. unfold cbnd_rho, brho. toR. replace (IZR (Qnum 1e-12) * / IZR (QDen 1e-12)) with (/ 10 ^ 12); [reflexivity|]. cbn. lra. Qed.

Lemma brho_sign rho : (0 < rho -> 0 < brho rho) /\ (rho < 0 -> brho rho < 0) /\ (rho = 0 -> brho rho = 0).
Proof.
  unfold brho. destruct (Reqb (Rabs rho) 1) eqn:E; [apply Reqb_true in E|lra].
  repeat split; intro H.
  - rewrite Rabs_pos_eq in E by lra. rewrite Rsgn_pos by lra. lra.
  - rewrite Rabs_left in E by lra. rewrite Rsgn_neg by lra. lra.
  - subst. rewrite Rabs_R0 in E. lra.
Qed.
Lemma Rsgn_opp' x : Rsgn (- x) = - Rsgn x.
Proof.
  destruct (Rtotal_order x 0) as [H|[->|H]].
  - rewrite (Rsgn_neg x), Rsgn_pos by lra. lra.
  - rewrite Ropp_0, Rsgn_0. lra.
  - rewrite (Rsgn_pos x), Rsgn_neg by lra. lra.
Qed.
Lemma brho_opp rho : brho (- rho) = - brho rho.
Proof.
  unfold brho. rewrite Rabs_Ropp. destruct (Reqb (Rabs rho) 1); [|reflexivity]. rewrite Rsgn_opp'. lra.
Qed.

(** the quadrature value, third quadrant *)
Definition q3 (a b rho : R) : R :=
  sqrt (1 - rho ^ 2) / PI * cbnd_quad (a / sqrt (2 * (1 - rho ^ 2))) (b / sqrt (2 * (1 - rho ^ 2))) rho.

Lemma q3_sym a b rho : q3 a b rho = q3 b a rho.
Proof.
  unfold q3. f_equal. generalize (a / sqrt (2 * (1 - rho ^ 2))) (b / sqrt (2 * (1 - rho ^ 2))). clear. intros a b.
  unfold cbnd_quad, cbnd_X, cbnd_y. cbn [combine fold_left fst snd].
  set (e := fun (a b I j : R) => expn (add (add (mul a (sub (mul (lit 2) I) a)) (mul b (sub (mul (lit 2) j) b)))
     (mul (mul (mul (lit 2) rho) (sub I a)) (sub j b)))).
  assert (E : forall I j, e a b I j = e b a j I).
  { intros. unfold e. cbn [expn RNum]. f_equal. cbn [add mul sub RNum]. ring. }
  change (fold_left _ _ _) with 0 || idtac.
  repeat match goal with |- context [expn (add (add (mul a (sub (mul (lit 2) ?I) a)) (mul b (sub (mul (lit 2) ?j) b)))
     (mul (mul (mul (lit 2) rho) (sub ?I a)) (sub ?j b)))] => change (expn (add (add (mul a (sub (mul (lit 2) I) a)) (mul b (sub (mul (lit 2) j) b)))
     (mul (mul (mul (lit 2) rho) (sub I a)) (sub j b)))) with (e a b I j) end.
  rewrite !E. clear E.
  repeat match goal with |- context [expn (add (add (mul b (sub (mul (lit 2) ?I) b)) (mul a (sub (mul (lit 2) ?j) a)))
     (mul (mul (mul (lit 2) rho) (sub ?I b)) (sub ?j a)))] => change (expn (add (add (mul b (sub (mul (lit 2) I) b)) (mul a (sub (mul (lit 2) j) a)))
     (mul (mul (mul (lit 2) rho) (sub I b)) (sub j a)))) with (e b a I j) end.
  clearbody e. cbn [add mul RNum]. 
  generalize (lit 0.24840615 : R) (lit 0.39233107 : R) (lit 0.21141819 : R) (lit 0.03324666 : R) (lit 0.00082485334 : R).
  generalize (lit 0.10024215 : R) (lit 0.48281397 : R) (lit 1.0609498 : R) (lit 1.7797294 : R) (lit 2.6697604 : R).
  intros. ring.
Qed.

Lemma brho_ne1 rho : Rabs (brho rho) <> 1.
Proof.
  unfold brho. destruct (Reqb (Rabs rho) 1) eqn:E; [apply Reqb_true in E|now apply Reqb_false in E].
  destruct (Rle_dec 0 rho) as [H|H].
  - rewrite Rabs_pos_eq in E by lra. rewrite Rsgn_pos, Rabs_pos_eq by lra. lra.
  - rewrite Rabs_left in E by lra. rewrite Rsgn_neg, Rabs_left by lra. lra.
Qed.
Lemma brho_idem rho : brho (brho rho) = brho rho.
Proof. unfold brho at 1. pose proof (brho_ne1 rho) as H. apply Reqb_false in H. now rewrite H. Qed.

Definition base4 (a b rho : R) : R :=
  let p := brho rho in
  if Rle_dec a 0 then
    if Rle_dec b 0 then (if Rle_dec p 0 then q3 a b p else if Rle_dec 0 b then cnd a - q3 a (- b) (- p) else cnd b - q3 (- a) b (- p))
    else (if Rle_dec 0 p then cnd a - q3 a (- b) (- p) else cnd a + cnd b - 1 + q3 (- a) (- b) p)
  else
    if Rle_dec b 0 then (if Rle_dec 0 p then cnd b - q3 (- a) b (- p) else cnd a + cnd b - 1 + q3 (- a) (- b) p)
    else cnd a + cnd b - 1 + q3 (- a) (- b) p.

Definition full (a b rho : R) : R :=
  let p := brho rho in
  if Rle_dec (a * b * p) 0 then base4 a b rho
  else
    let q := sqrt (a ^ 2 - 2 * p * a * b + b ^ 2) in
    base4 a 0 ((p * a - b) * Rsgn a / q) + base4 b 0 ((p * b - a) * Rsgn b / q) - (1 - Rsgn a * Rsgn b) / 4.

Lemma cbnd_step n a b rho : cbnd_fuel (S n) a b rho =
  let p := brho rho in
  if (Rleb a 0 && Rleb b 0 && Rleb p 0)%bool then Some (q3 a b p)
  else if (Rleb a 0 && Rleb 0 b && Rleb 0 p)%bool then
    match cbnd_fuel n a (- b) (- p) with Some v => Some (cnd a - v) | None => None end
  else if (Rleb 0 a && Rleb b 0 && Rleb 0 p)%bool then
    match cbnd_fuel n (- a) b (- p) with Some v => Some (cnd b - v) | None => None end
  else if (Rleb 0 a && Rleb 0 b && Rleb p 0)%bool then
    match cbnd_fuel n (- a) (- b) p with Some v => Some (cnd a + cnd b - 1 + v) | None => None end
  else if Rleb 0 (a * b * p) then
    let q := sqrt (a ^ 2 - 2 * p * a * b + b ^ 2) in
    match cbnd_fuel n a 0 ((p * a - b) * Rsgn a / q), cbnd_fuel n b 0 ((p * b - a) * Rsgn b / q) with
    | Some v1, Some v2 => Some (v1 + v2 - (1 - Rsgn a * Rsgn b) / 4)
    | _, _ => None
    end
  else None.
Proof.
  cbn [cbnd_fuel]. rewrite cbnd_rho_eq. unfold q3. set (c := @cnd R RNum). set (u := @cbnd_quad R RNum).
  set (w := @cbnd_fuel R RNum n). toR. reflexivity.
Qed.

Ltac leb := repeat match goal with
  | |- context [Rleb ?x ?y] =>
      let H := fresh in destruct (Rle_dec x y) as [H|H];
      [rewrite (proj2 (Rleb_true x y) H)|rewrite (proj2 (Rleb_false x y) ltac:(lra))]; cbn [andb]
  end.

Lemma cbnd_1 n a b rho : a <= 0 -> b <= 0 -> brho rho <= 0 -> cbnd_fuel (S n) a b rho = Some (q3 a b (brho rho)).
Proof. intros Ha Hb Hp. rewrite cbnd_step. cbv zeta. leb; try lra. reflexivity. Qed.

Lemma sign3 a b p : a * b * p <= 0 ->
  (a <= 0 /\ b <= 0 /\ p <= 0) \/ (a <= 0 /\ 0 <= b /\ 0 <= p) \/ (0 <= a /\ b <= 0 /\ 0 <= p) \/ (0 <= a /\ 0 <= b /\ p <= 0).
Proof.
  intro H. destruct (Rle_dec a 0), (Rle_dec b 0), (Rle_dec p 0); try lra;
  try (destruct (Req_dec a 0); [subst; lra|]); try (destruct (Req_dec b 0); [subst; lra|]); try (destruct (Req_dec p 0); [subst; lra|]); exfalso.
  - assert (0 < (- a) * (- b) * p) by (repeat apply Rmult_lt_0_compat; lra). nra.
  - assert (0 < (- a) * b * (- p)) by (repeat apply Rmult_lt_0_compat; lra). nra.
  - assert (0 < a * (- b) * (- p)) by (repeat apply Rmult_lt_0_compat; lra). nra.
  - assert (0 < a * b * p) by (repeat apply Rmult_lt_0_compat; lra). lra.
Qed.
Lemma cbnd_4 n a b rho : a * b * brho rho <= 0 -> cbnd_fuel (S (S n)) a b rho = Some (base4 a b rho).
Proof.
  intro H. apply sign3 in H. unfold base4. rewrite cbnd_step. cbv zeta.
  set (p := brho rho) in *. assert (Ei : brho p = p) by (unfold p; apply brho_idem).
  assert (Eo : brho (- p) = - p) by (rewrite brho_opp; congruence).
  leb; try reflexivity; try lra;
  repeat match goal with |- context [Rle_dec ?x ?y] => destruct (Rle_dec x y); try lra end;
  rewrite cbnd_1 by (rewrite ?Eo, ?Ei; lra); rewrite ?Eo, ?Ei; reflexivity.
Qed.
Lemma cbnd_full n a b rho : cbnd_fuel (S (S (S n))) a b rho = Some (full a b rho).
Proof.
  unfold full. set (p := brho rho). destruct (Rle_dec (a * b * p) 0) as [H|H]; [now apply cbnd_4|].
  rewrite cbnd_step. cbv zeta. fold p. set (q := sqrt _). 
  assert (H' : 0 < a * b * p) by lra.
  assert (Ha : a <> 0) by (intros ->; lra). assert (Hb : b <> 0) by (intros ->; lra). assert (Hp : p <> 0) by (intros ->; lra).
  assert (E1 : (Rleb a 0 && Rleb b 0 && Rleb p 0)%bool = false).
  { leb; try reflexivity. exfalso. assert (0 < (- a) * (- b) * (- p)) by (repeat apply Rmult_lt_0_compat; lra). lra. }
  assert (E2 : (Rleb a 0 && Rleb 0 b && Rleb 0 p)%bool = false).
  { leb; try reflexivity. exfalso. assert (0 < (- a) * b * p) by (repeat apply Rmult_lt_0_compat; lra). lra. }
  assert (E3 : (Rleb 0 a && Rleb b 0 && Rleb 0 p)%bool = false).
  { leb; try reflexivity. exfalso. assert (0 < a * (- b) * p) by (repeat apply Rmult_lt_0_compat; lra). lra. }
  assert (E4 : (Rleb 0 a && Rleb 0 b && Rleb p 0)%bool = false).
  { leb; try reflexivity. exfalso. assert (0 < a * b * (- p)) by (repeat apply Rmult_lt_0_compat; lra). lra. }
  rewrite E1, E2, E3, E4. rewrite (proj2 (Rleb_true 0 (a * b * p)) ltac:(lra)).
  rewrite !cbnd_4 by lra. reflexivity.
Qed.

(** three levels of recursion are always enough, and the routine never falls off its end *)
Lemma cbnd_fuel_enough n (a b rho : R) : (3 <= n)%nat -> cbnd_fuel n a b rho = cbnd a b rho.
Proof. intro H. unfold cbnd. do 3 (destruct n as [|n]; [lia|]). rewrite cbnd_full. symmetry. apply (cbnd_full 1). Qed.
Lemma cbnd_value (a b rho : R) : cbnd a b rho = Some (full a b rho).
Proof. apply cbnd_full. Qed.

Ltac rdec := repeat match goal with |- context [Rle_dec ?x ?y] => destruct (Rle_dec x y); try lra end.
Lemma base4_sym a b rho : a * b * brho rho <= 0 -> base4 a b rho = base4 b a rho.
Proof.
  unfold base4. set (p := brho rho). intro H. apply sign3 in H.
  rdec; rewrite 1?(q3_sym b a), 1?(q3_sym (- b) a), 1?(q3_sym b (- a)), 1?(q3_sym (- b) (- a)); try lra;
  assert (a = 0 \/ a <> 0) as [->|] by lra; assert (b = 0 \/ b <> 0) as [->|] by lra; try lra; rewrite ?Ropp_0; lra.
Qed.
Lemma full_sym a b rho : full a b rho = full b a rho.
Proof.
  unfold full. set (p := brho rho). replace (b * a * p) with (a * b * p) by ring.
  destruct (Rle_dec (a * b * p) 0); [now apply base4_sym|].
  replace (b ^ 2 - 2 * p * b * a + a ^ 2) with (a ^ 2 - 2 * p * a * b + b ^ 2) by ring. lra.
Qed.

Lemma base4_marginal a b rho : a * b * brho rho <= 0 -> brho rho * a <> b -> base4 a b rho + base4 a (- b) (- rho) = cnd a.
Proof.
  unfold base4. rewrite brho_opp. set (p := brho rho). intros H Hn. apply sign3 in H.
  rewrite !Ropp_involutive, (cnd_opp b).
  assert (Hz : b = 0 -> p <> 0) by (intros -> ->; lra).
  assert (b = 0 \/ b <> 0) as [->|Hb] by lra.
  - specialize (Hz eq_refl). rewrite Ropp_0, cnd_0. rdec.
  - assert (p = 0 \/ p <> 0) as [->|Hp] by lra; [rewrite Ropp_0|]; rdec.
Qed.
Lemma base4_swap b rho : b <> 0 -> base4 b 0 rho + base4 (- b) 0 (- rho) = 1 / 2.
Proof.
  unfold base4. rewrite brho_opp. set (p := brho rho). rewrite !Ropp_involutive, !Ropp_0, (cnd_opp b), cnd_0. intro Hb.
  assert (p = 0 \/ p <> 0) as [->|Hp] by lra; [rewrite ?Ropp_0|]; rdec.
Qed.
Lemma brho_lt rho : Rabs rho <= 1 -> -1 < brho rho < 1.
Proof.
  intro H. pose proof (brho_ne1 rho) as Hn. unfold brho in *.
  destruct (Reqb (Rabs rho) 1) eqn:E; [apply Reqb_true in E|apply Reqb_false in E].
  - destruct (Rle_dec 0 rho) as [H0|H0].
    + rewrite Rabs_pos_eq in E by lra. rewrite Rsgn_pos by lra. lra.
    + rewrite Rabs_left in E by lra. rewrite Rsgn_neg by lra. lra.
  - assert (Hl : Rabs rho < 1) by lra. apply Rabs_def2 in Hl. lra.
Qed.
Lemma full_marginal a b rho : Rabs rho <= 1 -> brho rho * a <> b -> full a b rho + full a (- b) (- rho) = cnd a.
Proof.
  intros Hr Hn. apply brho_lt in Hr. unfold full. rewrite brho_opp. set (p := brho rho) in *.
  replace (a * - b * - p) with (a * b * p) by ring.
  destruct (Rle_dec (a * b * p) 0) as [H|H]; [now apply base4_marginal|].
  assert (Ha : a <> 0) by (intros ->; lra). assert (Hb : b <> 0) by (intros ->; lra).
  replace (a ^ 2 - 2 * - p * a * - b + (- b) ^ 2) with (a ^ 2 - 2 * p * a * b + b ^ 2) by ring.
  set (q2 := a ^ 2 - 2 * p * a * b + b ^ 2).
  assert (Hq : 0 < sqrt q2).
  { apply sqrt_lt_R0. unfold q2. assert (0 < a ^ 2) by (rewrite <- Rsqr_pow2; apply Rlt_0_sqr, Ha).
    assert (0 <= (b - p * a) ^ 2) by apply pow2_ge_0.
    assert (0 < (1 - p ^ 2) * a ^ 2) by (apply Rmult_lt_0_compat; [nra|assumption]). nra. }
  set (r1 := (p * a - b) * Rsgn a / sqrt q2). set (r2 := (p * b - a) * Rsgn b / sqrt q2).
  replace ((- p * a - - b) * Rsgn a / sqrt q2) with (- r1) by (unfold r1, Rdiv; ring).
  rewrite (Rsgn_opp' b). replace ((- p * - b - a) * - Rsgn b / sqrt q2) with (- r2) by (unfold r2, Rdiv; ring).
  pose proof (base4_swap b r2 Hb) as E2.
  assert (E1 : base4 a 0 r1 + base4 a 0 (- r1) = cnd a).
  { rewrite <- (Ropp_0) at 2. apply base4_marginal; [lra|]. 
    assert (Hr1 : r1 <> 0).
    { unfold r1. apply Rmult_integral_contrapositive_currified; [|apply Rinv_neq_0_compat; lra].
      apply Rmult_integral_contrapositive_currified; [lra|].
      destruct (Rle_dec 0 a); [rewrite Rsgn_pos by lra|rewrite Rsgn_neg by lra]; lra. }
    apply Rmult_integral_contrapositive_currified; [|exact Ha]. destruct (brho_sign r1) as (B1 & B2 & _).
    destruct (Rle_dec 0 r1); [assert (0 < brho r1) by (apply B1; lra)|assert (brho r1 < 0) by (apply B2; lra)]; lra. }
  lra.
Qed.

(** ** The statements *)
Lemma cbnd_total (a b rho : R) : exists v, cbnd a b rho = Some v.
Proof. eexists. apply cbnd_value. Qed.
Lemma cbnd_symmetric (a b rho : R) : cbnd a b rho = cbnd b a rho.
Proof. rewrite !cbnd_value. f_equal. apply full_sym. Qed.
Lemma cbnd_marginal (a b rho : R) : -1 < rho < 1 -> rho * a <> b ->
  exists u v, cbnd a b rho = Some u /\ cbnd a (- b) (- rho) = Some v /\ u + v = cnd a.
Proof.
  intros Hr Hn. do 2 eexists. split; [apply cbnd_value|]. split; [apply cbnd_value|].
  assert (Hb : brho rho = rho).
  { unfold brho. destruct (Reqb (Rabs rho) 1) eqn:E; [apply Reqb_true in E|reflexivity].
    destruct (Rle_dec 0 rho); [rewrite Rabs_pos_eq in E by lra|rewrite Rabs_left in E by lra]; lra. }
  apply full_marginal; [|now rewrite Hb]. apply Rabs_le. lra.
Qed.

(*@ C55_total_symmetric | The bivariate normal routine returns a number for all real arguments (its recursion is at most three deep) and is symmetric in its two limits. *)
Lemma cbnd_total_symmetric : forall a b rho : R,
  (exists v, cbnd a b rho = Some v) /\ cbnd a b rho = cbnd b a rho /\
  forall fuel, (3 <= fuel)%nat -> cbnd_fuel fuel a b rho = cbnd a b rho.
Proof.
  intros a b rho. split; [apply cbnd_total|]. split; [apply cbnd_symmetric|].
  intros. now apply cbnd_fuel_enough.
Qed.

(*@ C55_marginals | It has exact normal marginals: P(X<a, Y<b) + P(X<a, Y>b) is the library's N(a); hence also P(X<a,Y<b) = N(a) + N(b) - 1 + P(X>a,Y>b). (|rho| < 1; away from the line b = rho a, resp. a = -rho b where the reflected correlation is clipped.) *)
Lemma cbnd_marginals : forall a b rho : R, -1 < rho < 1 -> rho * a <> b -> rho * b <> a ->
  exists u v w, cbnd a b rho = Some u /\ cbnd a (- b) (- rho) = Some v /\ cbnd (- a) (- b) rho = Some w /\
    u + v = cnd a /\ u = cnd a + cnd b - 1 + w.
Proof.
  intros a b rho H1 H2 H3. destruct (cbnd_marginal a b rho H1 H2) as (u & v & U & V & E).
  destruct (cbnd_marginal (- b) a (- rho) ltac:(lra)) as (v' & w & V' & W & E'); [lra|].
  rewrite cbnd_symmetric, V in V'. injection V' as <-. rewrite cbnd_symmetric, Ropp_involutive in W.
  exists u, v, w. repeat split; auto. rewrite cnd_opp in E'. lra.
Qed.
