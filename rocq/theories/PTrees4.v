(** Final statements about the tree pricers (one lemma per property theorem). *)
From Coq Require Import Reals String List Arith ZArith QArith Bool Lia Lra Psatz.
From Coquelicot Require Import Coquelicot.
From Verif Require Import Num Py Arr MTrees STrees PTrees PTrees2 PStop PTrees3 PLattice.
Import ListNotations.
Open Scope R_scope.

(* ------------------------------------------------------------------ links *)
Section Link.
Variables (S K t r b sigma : R) (n : nat).
Hypothesis Hn : n <> 0%nat.
Hypothesis Ht : 0 < t.
Hypothesis Hs : sigma <> 0.
Let dt := t / INR n.

Lemma link_u k ty : bi_u k (mkTree S K t r b sigma ty n) = step_u k b sigma dt.
Proof.
  destruct k; [rewrite crr_u|rewrite jr_u|rewrite tian_u]; auto. cbn [step_u]. cbv zeta.
  simpl pow. now rewrite ?Rmult_1_r.
Qed.
Lemma link_d k ty : bi_d k (mkTree S K t r b sigma ty n) = step_d k b sigma dt.
Proof.
  destruct k; [rewrite crr_d|rewrite jr_d|rewrite tian_d]; auto. cbn [step_d]. cbv zeta.
  simpl pow. now rewrite ?Rmult_1_r.
Qed.
Lemma link_p k ty : bi_p k (mkTree S K t r b sigma ty n) = step_p k b sigma dt.
Proof.
  destruct k; [rewrite crr_p|rewrite jr_p|rewrite tian_p]; auto; rewrite link_u, link_d; reflexivity.
Qed.

Lemma link_sq_p ty : bi_p CRR (mkTree S K t r b sigma ty (2 * n)) = step_p CRR b sigma (dt / 2).
Proof.
  change (mkTree S K t r b sigma ty (2 * n)) with (sq_o S K t r b sigma ty n).
  rewrite crr_p2, crr_u2, crr_d2 by auto. cbn [step_p step_u step_d].
  rewrite Ropp_mult_distr_l. reflexivity.
Qed.

Lemma price_WM c amer call :
  tree_price c (mkTree S K t r b sigma (the_type amer) n) call false =
  Ok (Price (WM amer (moves c b sigma dt) (exp (- r * dt)) (zof call) K n S)).
Proof.
  set (o := mkTree S K t r b sigma (the_type amer) n).
  assert (Z : forall v w : R, v = w -> Ok (Price v) = Ok (Price w)) by (intros; congruence).
  destruct c as [k|]; cbn [tree_price].
  - transitivity (bi_calc_price k o (if call then 1 else -1) false); [destruct call; reflexivity|].
    rewrite (bi_price_W k o _ amer Hn eq_refl). apply Z.
    replace (IZR (if call then 1%Z else (-1)%Z)) with (zof call) by (destruct call; reflexivity).
    unfold o. rewrite link_u, link_d, link_p. rewrite bi_Df_eq by auto. cbn [to_K to_n to_S].
    fold dt. unfold WM, moves. destruct amer; [apply W_WG|apply W_WGe].
  - transitivity (tri_calc_price o (if call then 1 else -1) false); [destruct call; reflexivity|].
    rewrite (tri_price_WT o _ amer Hn eq_refl). apply Z.
    replace (IZR (if call then 1%Z else (-1)%Z)) with (zof call) by (destruct call; reflexivity).
    assert (Eu : tri_u o = exp (2 * (sigma * sqrt (dt / 2)))).
    { unfold o. rewrite tri_u_sq, crr_u2 by auto. rewrite <- exp_plus. f_equal. unfold dt. ring. }
    assert (Ed : tri_d o = exp (- (2 * (sigma * sqrt (dt / 2))))).
    { unfold o. rewrite tri_d_sq, crr_d2 by auto. rewrite <- exp_plus. f_equal. unfold dt. ring. }
    assert (Epu : tri_pu o = step_p CRR b sigma (dt / 2) ^ 2).
    { unfold o. rewrite tri_pu_sq by auto. unfold sq_o. rewrite link_sq_p. ring. }
    assert (Epd : tri_pd o = (1 - step_p CRR b sigma (dt / 2)) ^ 2).
    { unfold o. rewrite tri_pd_sq by auto. unfold sq_o. rewrite link_sq_p. ring. }
    assert (Epm : tri_pm o = 2 * step_p CRR b sigma (dt / 2) * (1 - step_p CRR b sigma (dt / 2))).
    { unfold tri_pm. rewrite Epu, Epd. toR. ring. }
    assert (EDf : tri_Df o = exp (- r * dt)).
    { unfold o, tri_Df. rewrite tri_dt_eq. reflexivity. }
    rewrite Eu, Ed, Epu, Epd, Epm, EDf. cbn [to_K to_n to_S o].
    unfold WM, moves. destruct amer; [apply WT_WG|apply WT_WGe].
Qed.

Lemma dt_pos' : 0 < dt.
Proof. apply dt_pos; auto. Qed.
Lemma step_ud_pos k : 0 < step_u k b sigma dt /\ 0 < step_d k b sigma dt.
Proof.
  rewrite <- (link_u k ""%string), <- (link_d k ""%string). apply bi_ud_pos; auto.
Qed.
Lemma moves_pos' c a : In a (moves c b sigma dt) -> 0 < snd a.
Proof.
  destruct c as [k|]; cbn [moves In]; cbv zeta.
  - pose proof (step_ud_pos k). intros [<-|[<-|[]]]; simpl; lra.
  - intros [<-|[<-|[<-|[]]]]; simpl; try lra; apply exp_pos.
Qed.
Lemma moves_pos c a : In a (moves c b sigma dt) -> 0 <= snd a.
Proof. intro H. left. eapply moves_pos'; eauto. Qed.
Lemma moves_sum c : sumR (map fst (moves c b sigma dt)) = 1.
Proof. destruct c; cbn [moves map fst sumR fold_right]; cbv zeta; cbn [moves map fst sumR fold_right]; ring. Qed.

Lemma half_forward :
  step_p CRR b sigma (dt / 2) * exp (sigma * sqrt (dt / 2))
  + (1 - step_p CRR b sigma (dt / 2)) * exp (- (sigma * sqrt (dt / 2))) = exp (b * (dt / 2)).
Proof.
  cbn [step_p step_u step_d]. field. pose proof dt_pos'.
  intro E. assert (E' : exp (sigma * sqrt (dt / 2)) = exp (- (sigma * sqrt (dt / 2)))) by lra.
  apply exp_inv in E'. assert (0 < sqrt (dt / 2)) by (apply sqrt_lt_R0; lra).
  assert (sigma * sqrt (dt / 2) <> 0) by (apply Rmult_integral_contrapositive; lra). lra.
Qed.

Lemma moves_forward c : c <> Bi JR ->
  sumR (map (fun a => fst a * snd a) (moves c b sigma dt)) = exp (b * dt).
Proof.
  intro Hc. destruct c as [k|]; cbn [moves]; cbv zeta; cbn [map fst snd sumR fold_right].
  - rewrite <- (link_u k ""%string), <- (link_d k ""%string), <- (link_p k ""%string).
    rewrite Rplus_0_r. apply one_step_forward; auto. congruence.
  - pose proof half_forward as H.
    set (q := step_p CRR b sigma (dt / 2)) in *. set (h := sigma * sqrt (dt / 2)) in *.
    replace (b * dt) with (b * (dt / 2) + b * (dt / 2)) by field. rewrite exp_plus, <- H.
    replace (2 * h) with (h + h) by ring. rewrite Ropp_plus_distr, !exp_plus.
    assert (E : exp h * exp (- h) = 1) by (rewrite <- exp_plus, Rplus_opp_r; apply exp_0).
    transitivity (q ^ 2 * (exp h * exp h) + 2 * q * (1 - q) * (exp h * exp (- h)) + (1 - q) ^ 2 * (exp (- h) * exp (- h))).
    + rewrite E. ring.
    + ring.
Qed.
Lemma Df_pow : exp (- r * dt) ^ n = exp (- r * t).
Proof. rewrite exp_pow. f_equal. unfold dt. field. now apply not_0_INR. Qed.
Lemma fwd_pow : exp (b * dt) ^ n = exp (b * t).
Proof. rewrite exp_pow. f_equal. unfold dt. field. now apply not_0_INR. Qed.
End Link.

Lemma pow_strict x y n : 0 < x < y -> n <> 0%nat -> x ^ n < y ^ n.
Proof.
  intros H Hn. destruct n as [|n]; [easy|]. clear Hn. induction n; [simpl; lra|].
  change (x * x ^ S n < y * y ^ S n). apply Rmult_le_0_lt_compat; try lra. apply pow_le; lra.
Qed.

Ltac priced := repeat (rewrite price_WM; [|assumption..]).
Lemma exp_le_mono x y : x <= y -> exp x <= exp y.
Proof. intros [H|H]; [left; now apply exp_increasing|right; now rewrite H]. Qed.
Lemma Df_le_1 r t n : n <> 0%nat -> 0 < t -> 0 <= r -> exp (- r * (t / INR n)) <= 1.
Proof. intros Hn Ht Hr. rewrite <- exp_0. apply exp_le_mono. pose proof (dt_pos t n Hn Ht). nra. Qed.

(* ------------------------------------------------------------------ C22 *)
(*@ C22_binomial_sum | European CRR, JR and TIAN prices are the discounted binomial expectation. *)
Lemma euro_binomial_sum : forall k S K t r b sigma n (call : bool),
  n <> 0%nat -> 0 < t -> sigma <> 0 ->
  let dt := t / INR n in
  let u := step_u k b sigma dt in let d := step_d k b sigma dt in let p := step_p k b sigma dt in
  tree_price (Bi k) (mkTree S K t r b sigma "european" n) call false =
  Ok (Price (exp (- r * t) *
    sum_f_R0 (fun i => Binomial.C n i * p ^ i * (1 - p) ^ (n - i) * Rmax (zof call * (S * u ^ i * d ^ (n - i) - K)) 0) n)).
Proof.
  intros k S K t r b sigma n call Hn Ht Hs dt u d p.
  change "european"%string with (the_type false). rewrite price_WM by auto. do 2 f_equal.
  unfold WM, moves. rewrite <- W_WGe, euro_bsum. fold dt. rewrite <- (Df_pow t r n) by auto. fold dt.
  f_equal. unfold bsum. apply sum_ext. intros i Hi. rewrite binom_C by auto. fold u d p. ring.
Qed.

(*@ C22_path_expectation | For all four classes the European price is the expectation over all paths of the discounted payoff. *)
Lemma euro_path_expectation : forall c S K t r b sigma n (call : bool),
  n <> 0%nat -> 0 < t -> sigma <> 0 ->
  tree_price c (mkTree S K t r b sigma "european" n) call false =
  Ok (Price (exp (- r * t) *
    sumR (map (fun w => prob w * Rmax (zof call * (price_after S w - K)) 0)
              (paths (moves c b sigma (t / INR n)) n)))).
Proof.
  intros c S K t r b sigma n call Hn Ht Hs.
  change "european"%string with (the_type false). rewrite price_WM by auto. do 2 f_equal.
  unfold WM. set (mv := moves _ _ _ _). set (Df := exp (- r * (t / INR n))). set (z := zof call).
  assert (Hsum : sumR (map fst mv) = 1) by (apply moves_sum).
  pose proof (never_policy mv Df z K Hsum S n []) as H.
  simpl length in H. rewrite Rmult_1_l in H. change (price_after S []) with S in H. rewrite <- H.
  rewrite <- (Df_pow t r n) by auto. fold Df. rewrite <- sumR_scal. apply sumR_ext. intros w Hw.
  assert (G : forall w h, reward (fun _ => false) Df z K S h w
     = Df ^ (length h + length w) * Rmax (z * (price_after S (h ++ w) - K)) 0).
  { clear. induction w; intros h; simpl.
    - now rewrite Nat.add_0_r, app_nil_r.
    - rewrite IHw, app_length, <- app_assoc. cbn [length app].
      replace (length h + 1 + length w)%nat with (length h + Datatypes.S (length w))%nat by lia. reflexivity. }
  assert (Ln : forall m w, In w (paths mv m) -> length w = m).
  { clear. induction m; cbn [paths]; intros w H.
    - destruct H as [<-|[]]; auto.
    - apply in_flat_map in H. destruct H as (a & Ha & Hw). apply in_map_iff in Hw.
      destruct Hw as (w' & <- & Hw'). simpl. f_equal. auto. }
  rewrite G. rewrite (Ln n w Hw). simpl. ring.
Qed.

(* ------------------------------------------------------------------ C23 *)
(*@ C23_optimal_stopping | The American price is the largest expected discounted payoff over all history-dependent exercise policies, and is attained. *)
Lemma american_optimal : forall c S K t r b sigma n (call : bool),
  n <> 0%nat -> 0 < t -> sigma <> 0 -> weights_ok c b sigma (t / INR n) ->
  exists v,
    tree_price c (mkTree S K t r b sigma "american" n) call false = Ok (Price v) /\
    (forall stop, policy_value (moves c b sigma (t / INR n)) stop (exp (- r * (t / INR n))) (zof call) K n S <= v) /\
    (exists stop, policy_value (moves c b sigma (t / INR n)) stop (exp (- r * (t / INR n))) (zof call) K n S = v).
Proof.
  intros c S K t r b sigma n call Hn Ht Hs Hw.
  change "american"%string with (the_type true). rewrite price_WM by auto.
  eexists; split; [reflexivity|]. unfold WM. apply optimal_stopping; auto.
  - apply moves_sum.
  - apply exp_pos.
Qed.

(* ------------------------------------------------------------------ C24 *)
(*@ C24_binomial_tree_layout | In any arithmetic: there is a value function V(time, ups) obeying the backward recursion such that call/put return V 0 0, and the tree matrix has V c (c-i) in row i <= column c and 0 below. *)
Lemma binomial_layout : forall (T : Type) (N : Num T) k (o : TreeOption T) (call amer : bool),
  to_n o <> 0%nat -> to_type o = the_type amer ->
  exists (V : nat -> nat -> T) m,
    tree_price (Bi k) o call false = Ok (Price (V 0 0)%nat) /\
    tree_price (Bi k) o call true = Ok (Matrix m) /\
    length m = (to_n o + 1)%nat /\ (forall i row, nth_error m i = Some row -> length row = (to_n o + 1)%nat) /\
    (forall i c, (i <= c <= to_n o)%nat -> mget m i c = Ok (V c (c - i)%nat)) /\
    (forall i c, (c < i <= to_n o)%nat -> mget m i c = Ok (ofZ 0)) /\
    let z := ofZ (if call then 1 else -1) in
    let ex c i := (z * (to_S o * bi_u k o ^ i * bi_d k o ^ (c - i) - to_K o))%num in
    (forall i, (i <= to_n o)%nat -> V (to_n o) i = ((absn (ex (to_n o) i) + ex (to_n o) i) / ofZ 2)%num) /\
    (forall c i, (i <= c < to_n o)%nat ->
       let cont := ((bi_p k o * V (c + 1)%nat (i + 1)%nat + (ofZ 1 - bi_p k o) * V (c + 1)%nat i) * bi_Df o)%num in
       V c i = if amer then (if ltb (ex c i) cont then cont else ex c i) else cont).
Proof.
  intros T N k o call amer Hn Ht.
  set (zz := if call then 1%Z else (-1)%Z).
  exists (fun c i => bi_value k o zz amer (to_n o - c) i).
  destruct (bi_tree_value k o zz amer Hn Ht) as (m & E & (L & R) & G & G0).
  exists m. split; [|split; [|split; [exact L|split; [exact R|split; [exact G|split; [exact G0|]]]]]].
  - rewrite Nat.sub_0_r. rewrite <- (bi_price_value k o zz amer Hn Ht). destruct call; reflexivity.
  - rewrite <- E. destruct call; reflexivity.
  - cbv zeta. split.
    + intros i Hi. rewrite Nat.sub_diag. reflexivity.
    + intros c i Hc. replace (to_n o - c)%nat with (Datatypes.S (to_n o - (c + 1))) by lia.
      unfold bi_value at 1. cbn [bnode]. fold (bi_value k o zz amer (to_n o - (c + 1)) (i + 1)).
      fold (bi_value k o zz amer (to_n o - (c + 1)) i).
      replace (to_n o - Datatypes.S (to_n o - (c + 1)))%nat with c by lia.
      cbv zeta. unfold pymax, bi_ex. reflexivity.
Qed.

(*@ C24_trinomial_tree_layout | In any arithmetic: V(time, node) obeys the trinomial backward recursion; column c of the (2n+1) x (n+1) matrix holds V c (n+c-i) in rows n-c .. n+c and 0 elsewhere; V 0 0 is the price. *)
Lemma trinomial_layout : forall (T : Type) (N : Num T) (o : TreeOption T) (call amer : bool),
  to_n o <> 0%nat -> to_type o = the_type amer ->
  let n := to_n o in
  exists (V : nat -> nat -> T) m,
    tree_price Tri o call false = Ok (Price (V 0 0)%nat) /\
    tree_price Tri o call true = Ok (Matrix m) /\
    length m = (2 * n + 1)%nat /\ (forall i row, nth_error m i = Some row -> length row = (n + 1)%nat) /\
    (forall i c, (c <= n)%nat -> (n - c <= i <= n + c)%nat -> mget m i c = Ok (V c (n + c - i)%nat)) /\
    (forall i c, (c <= n)%nat -> (i < n - c \/ n + c < i <= 2 * n)%nat -> mget m i c = Ok (ofZ 0)) /\
    let z := ofZ (if call then 1 else -1) in
    let ex c i := (z * (to_S o * tri_u o ^ (i - c) * tri_d o ^ (c - i) - to_K o))%num in
    (forall i, (i <= 2 * n)%nat -> V n i = maxn (ofZ 0) (ex n i)) /\
    (forall c i, (i <= 2 * c)%nat -> (c < n)%nat ->
       let cont := ((tri_pu o * V (c + 1)%nat (i + 2)%nat + tri_pm o * V (c + 1)%nat (i + 1)%nat
                     + tri_pd o * V (c + 1)%nat i) * tri_Df o)%num in
       V c i = if amer then maxn (ex c i) cont else cont).
Proof.
  intros T N o call amer Hn Ht n.
  set (zz := if call then 1%Z else (-1)%Z).
  exists (fun c i => tri_value o zz amer (to_n o - c) i).
  destruct (tri_tree_value o zz amer Hn Ht) as (m & E & (L & R) & G & G0).
  exists m. split; [|split; [|split; [exact L|split; [exact R|split; [exact G|split; [exact G0|]]]]]].
  - rewrite Nat.sub_0_r. rewrite <- (tri_price_value o zz amer Hn Ht). destruct call; reflexivity.
  - rewrite <- E. destruct call; reflexivity.
  - cbv zeta. split.
    + intros i Hi. unfold n. rewrite Nat.sub_diag. unfold tri_value. cbn [tnode].
      unfold tri_exercise. rewrite !posdiff_sub. reflexivity.
    + intros c i Hi Hc. fold n. replace (n - c)%nat with (Datatypes.S (n - (c + 1))) by lia.
      unfold tri_value at 1. fold n. cbn [tnode]. unfold n.
      fold (tri_value o zz amer (to_n o - (c + 1)) (i + 2)).
      fold (tri_value o zz amer (to_n o - (c + 1)) (i + 1)).
      fold (tri_value o zz amer (to_n o - (c + 1)) i). unfold n in Hc.
      replace (to_n o - Datatypes.S (to_n o - (c + 1)))%nat with c by lia.
      cbv zeta. unfold tri_exercise. rewrite !posdiff_sub. reflexivity.
Qed.

(* ------------------------------------------------------------------ C25 *)
(*@ C25_lattice_parity | Put-call parity holds exactly on CRR, TIAN and trinomial lattices for every n. *)
Lemma lattice_parity : forall c S K t r b sigma n,
  n <> 0%nat -> 0 < t -> sigma <> 0 -> c <> Bi JR ->
  exists vc vp,
    tree_price c (mkTree S K t r b sigma "european" n) true false = Ok (Price vc) /\
    tree_price c (mkTree S K t r b sigma "european" n) false false = Ok (Price vp) /\
    vc - vp = S * exp ((b - r) * t) - K * exp (- r * t).
Proof.
  intros c S K t r b sigma n Hn Ht Hs Hc.
  change "european"%string with (the_type false). rewrite !price_WM by auto.
  eexists; eexists; split; [reflexivity|]; split; [reflexivity|].
  unfold zof. rewrite WM_parity by (apply moves_sum).
  rewrite moves_forward, Df_pow, fwd_pow by auto.
  replace ((b - r) * t) with (- r * t + b * t) by ring. rewrite exp_plus. ring.
Qed.

(*@ C25_jr_parity_refuted | Jarrow-Rudd lattices violate parity: call - put is strictly below the forward value, for every n and sigma. *)
Lemma jr_parity_violated : forall S K t r b sigma n,
  n <> 0%nat -> 0 < t -> sigma <> 0 -> 0 < S ->
  exists vc vp,
    tree_price (Bi JR) (mkTree S K t r b sigma "european" n) true false = Ok (Price vc) /\
    tree_price (Bi JR) (mkTree S K t r b sigma "european" n) false false = Ok (Price vp) /\
    vc - vp < S * exp ((b - r) * t) - K * exp (- r * t).
Proof.
  intros S K t r b sigma n Hn Ht Hs HS.
  change "european"%string with (the_type false). rewrite !price_WM by auto.
  eexists; eexists; split; [reflexivity|]; split; [reflexivity|].
  unfold zof. rewrite WM_parity by (apply moves_sum). rewrite Df_pow by auto.
  set (F := sumR _). pose proof (jr_one_step S K t r b sigma ""%string n Hn Ht Hs) as J. cbv zeta in J.
  rewrite link_u, link_d, link_p in J by auto.
  assert (EF : F = step_p JR b sigma (t / INR n) * step_u JR b sigma (t / INR n)
               + (1 - step_p JR b sigma (t / INR n)) * step_d JR b sigma (t / INR n))
    by (unfold F; cbn [moves map fst snd sumR fold_right]; ring).
  rewrite <- EF in J.
  assert (0 < F).
  { rewrite EF. cbn [step_p]. pose proof (step_ud_pos S K t r b sigma n Hn Ht Hs JR). nra. }
  assert (F ^ n < exp (b * t)).
  { rewrite <- (fwd_pow t b n) by auto. apply pow_strict; auto. }
  replace ((b - r) * t) with (- r * t + b * t) by ring. rewrite exp_plus.
  pose proof (exp_pos (- r * t)). set (D := exp (- r * t)) in *.
  replace (S * (D * exp (b * t)) - K * D) with (D * (S * exp (b * t) - K)) by ring.
  apply Rmult_lt_compat_l; auto. apply Rplus_lt_compat_r. now apply Rmult_lt_compat_l.
Qed.

(* ------------------------------------------------------------------ C26 *)
(*@ C26_american_dominates | With probabilities in [0,1], American >= European >= 0 and American >= exercise value. *)
Lemma american_dominates : forall c S K t r b sigma n (call : bool),
  n <> 0%nat -> 0 < t -> sigma <> 0 -> weights_ok c b sigma (t / INR n) ->
  exists va ve,
    tree_price c (mkTree S K t r b sigma "american" n) call false = Ok (Price va) /\
    tree_price c (mkTree S K t r b sigma "european" n) call false = Ok (Price ve) /\
    0 <= ve /\ ve <= va /\ zof call * (S - K) <= va.
Proof.
  intros c S K t r b sigma n call Hn Ht Hs Hw.
  change "european"%string with (the_type false). change "american"%string with (the_type true).
  rewrite !price_WM by auto.
  eexists; eexists; split; [reflexivity|]; split; [reflexivity|].
  pose proof (exp_pos (- r * (t / INR n))) as HD. split; [|split].
  - apply WM_nonneg; auto.
  - apply WM_amer_ge_euro; auto.
  - eapply Rle_trans; [|apply (WM_amer_ge_ex _ _ Hw HD)]. apply Rmax_l.
Qed.

(* ------------------------------------------------------------------ C27 *)
(*@ C27_no_early_exercise_call | If b >= r >= 0 the American call equals the European call (CRR, TIAN, trinomial). *)
Lemma no_early_exercise_call : forall c S K t r b sigma n,
  n <> 0%nat -> 0 < t -> sigma <> 0 -> c <> Bi JR -> weights_ok c b sigma (t / INR n) ->
  0 <= S -> 0 <= K -> 0 <= r -> r <= b ->
  exists v,
    tree_price c (mkTree S K t r b sigma "american" n) true false = Ok (Price v) /\
    tree_price c (mkTree S K t r b sigma "european" n) true false = Ok (Price v).
Proof.
  intros c S K t r b sigma n Hn Ht Hs Hc Hw HS HK Hr Hb.
  change "european"%string with (the_type false). change "american"%string with (the_type true).
  rewrite !price_WM by auto. eexists; split; [reflexivity|]. do 2 f_equal. symmetry.
  pose proof (dt_pos t n Hn Ht). unfold zof.
  apply WM_call_no_early; auto.
  - apply exp_pos.
  - apply moves_sum.
  - intros a. apply moves_pos; auto.
  - apply Df_le_1; auto.
  - rewrite moves_forward by auto. rewrite <- exp_plus, <- exp_0. apply exp_le_mono. nra.
Qed.

(*@ C27_no_early_exercise_put | If r <= 0 and b <= r the American put equals the European put (CRR, TIAN, trinomial). *)
Lemma no_early_exercise_put : forall c S K t r b sigma n,
  n <> 0%nat -> 0 < t -> sigma <> 0 -> c <> Bi JR -> weights_ok c b sigma (t / INR n) ->
  0 <= S -> 0 <= K -> r <= 0 -> b <= r ->
  exists v,
    tree_price c (mkTree S K t r b sigma "american" n) false false = Ok (Price v) /\
    tree_price c (mkTree S K t r b sigma "european" n) false false = Ok (Price v).
Proof.
  intros c S K t r b sigma n Hn Ht Hs Hc Hw HS HK Hr Hb.
  change "european"%string with (the_type false). change "american"%string with (the_type true).
  rewrite !price_WM by auto. eexists; split; [reflexivity|]. do 2 f_equal. symmetry.
  pose proof (dt_pos t n Hn Ht). unfold zof.
  apply WM_put_no_early; auto.
  - apply exp_pos.
  - apply moves_sum.
  - intros a. apply moves_pos; auto.
  - rewrite <- exp_0. apply exp_le_mono. nra.
  - rewrite moves_forward by auto. left; apply exp_pos.
  - rewrite moves_forward by auto. rewrite <- exp_plus, <- exp_0. apply exp_le_mono. nra.
Qed.

(*@ C27_jr_early_exercise_refuted | Jarrow-Rudd: with b = r = 0 an American call can exceed the European call (S=100, K=1, t=1, sigma=20%, n=1). *)
Lemma jr_early_exercise : exists va ve,
  tree_price (Bi JR) (mkTree 100 1 1 0 0 (1/5) "american" 1) true false = Ok (Price va) /\
  tree_price (Bi JR) (mkTree 100 1 1 0 0 (1/5) "european" 1) true false = Ok (Price ve) /\ ve < va.
Proof.
  change "european"%string with (the_type false). change "american"%string with (the_type true).
  rewrite !price_WM by (auto; lra).
  eexists; eexists; split; [reflexivity|]; split; [reflexivity|].
  unfold zof.
  pose proof (jr_one_step 100 1 1 0 0 (1/5) ""%string 1 ltac:(auto) ltac:(lra) ltac:(lra)) as J. cbv zeta in J.
  rewrite link_u, link_d, link_p in J by (auto; lra).
  set (dt := 1 / INR 1) in *. replace (- 0 * dt) with 0 by ring. replace (0 * dt) with 0 in J by ring.
  rewrite exp_0 in *.
  assert (Hdt : dt = 1) by (unfold dt; simpl; field). 
  assert (U : 1 <= 100 * step_u JR 0 (1/5) dt /\ 1 <= 100 * step_d JR 0 (1/5) dt).
  { rewrite Hdt. cbn [step_u step_d]. rewrite sqrt_1.
    pose proof (exp_ineq1_le ((0 - (1 / 5) ^ 2 / 2) * 1 + 1 / 5 * 1)).
    pose proof (exp_ineq1_le ((0 - (1 / 5) ^ 2 / 2) * 1 - 1 / 5 * 1)). lra. }
  unfold WM. cbn [WG WGe moves map fst snd sumR fold_right].
  set (u := step_u JR 0 (1/5) dt) in *. set (d := step_d JR 0 (1/5) dt) in *. cbn [step_p] in *.
  rewrite (Rmax_left (1 * (100 * u - 1))) by lra. rewrite (Rmax_left (1 * (100 * d - 1))) by lra.
  eapply Rlt_le_trans; [|apply Rmax_l]. lra.
Qed.

(* ------------------------------------------------------------------ C28 *)
(*@ C28_homogeneous | Prices scale with (S, K). *)
Lemma tree_homogeneous : forall c S K t r b sigma n (amer call : bool) q,
  n <> 0%nat -> 0 < t -> sigma <> 0 -> 0 <= q ->
  exists v,
    tree_price c (mkTree S K t r b sigma (the_type amer) n) call false = Ok (Price v) /\
    tree_price c (mkTree (q * S) (q * K) t r b sigma (the_type amer) n) call false = Ok (Price (q * v)).
Proof.
  intros. rewrite !price_WM by auto. eexists; split; [reflexivity|]. do 2 f_equal.
  now apply WM_homog.
Qed.

Lemma sumR_rev l : sumR (rev l) = sumR l.
Proof. induction l; simpl; auto. rewrite sumR_app, IHl. simpl. ring. Qed.
Lemma WM_rev amer mv Df z K m x : WM amer (rev mv) Df z K m x = WM amer mv Df z K m x.
Proof.
  revert x. induction m; intros; rewrite ?WM_0, ?WM_S; auto.
  assert (E : Ex (rev mv) (WM amer (rev mv) Df z K m) x = Ex mv (WM amer mv Df z K m) x).
  { unfold Ex. rewrite map_rev, sumR_rev. apply sumR_ext. intros. now rewrite IHm. }
  now rewrite E.
Qed.
Lemma WM_dual amer mv Df Df' (g : move -> move) K m x :
  (forall a, In a mv -> 0 <= snd a) ->
  (forall a, In a mv -> Df' * fst (g a) = Df * fst a * snd a /\ snd (g a) * snd a = 1) ->
  WM amer mv Df 1 K m x = WM amer (map g mv) Df' (-1) x m K.
Proof.
  intros Hp Hg. revert K x. induction m; intros; rewrite ?WM_0, ?WM_S.
  - f_equal; ring.
  - assert (E : Df * Ex mv (WM amer mv Df 1 K m) x = Df' * Ex (map g mv) (WM amer (map g mv) Df' (-1) x m) K).
    { unfold Ex. rewrite <- !sumR_scal, map_map. apply sumR_ext. intros a Ha.
      destruct (Hg a Ha) as [G1 G2]. rewrite (IHm K (x * snd a)).
      assert (HH : WM amer (map g mv) Df' (-1) (x * snd a) m K
                   = snd a * WM amer (map g mv) Df' (-1) x m (K * snd (g a))).
      { rewrite <- (WM_homog (map g mv) Df' amer (-1) (snd a) x m (K * snd (g a))); auto.
        f_equal; [ring|]. transitivity (K * (snd (g a) * snd a)); [rewrite G2; ring|ring]. }
      rewrite HH. set (w := WM amer (map g mv) Df' (-1) x m (K * snd (g a))).
      transitivity (Df * fst a * snd a * w); [ring|]. rewrite <- G1. ring. }
    rewrite E. destruct amer; auto. f_equal. ring.
Qed.

(*@ C28_duality | CRR and trinomial: call(S,K,t,r,b,sigma) = put(K,S,t,r-b,-b,sigma), European and American. *)
Lemma tree_duality : forall c S K t r b sigma n (amer : bool),
  n <> 0%nat -> 0 < t -> sigma <> 0 -> c = Bi CRR \/ c = Tri ->
  exists v,
    tree_price c (mkTree S K t r b sigma (the_type amer) n) true false = Ok (Price v) /\
    tree_price c (mkTree K S t (r - b) (- b) sigma (the_type amer) n) false false = Ok (Price v).
Proof.
  intros c S K t r b sigma n amer Hn Ht Hs Hc. rewrite !price_WM by auto.
  eexists; split; [reflexivity|]. do 2 f_equal. symmetry. unfold zof.
  pose proof (dt_pos t n Hn Ht) as Hd. set (dt := t / INR n) in *.
  set (g := fun a : move => (exp (- b * dt) * (fst a * snd a), / snd a)).
  rewrite (WM_dual amer _ _ (exp (- (r - b) * dt)) g).
  - assert (E : forall a, snd (g a) = / snd a) by reflexivity.
    assert (P : forall h, 0 < h -> sigma * sqrt h <> 0).
    { intros h Hh. apply Rmult_integral_contrapositive. split; auto. apply Rgt_not_eq, sqrt_lt_R0; auto. }
    (* the dual up probability *)
    assert (Q : forall h, 0 < h ->
       exp (- b * h) * (step_p CRR b sigma h * exp (sigma * sqrt h)) = 1 - step_p CRR (- b) sigma h /\
       exp (- b * h) * ((1 - step_p CRR b sigma h) * exp (- (sigma * sqrt h))) = step_p CRR (- b) sigma h).
    { intros h Hh. specialize (P h Hh). cbn [step_p step_u step_d]. set (s := sigma * sqrt h) in *.
      assert (NE : exp s - exp (- s) <> 0).
      { intro E0. assert (E1 : exp s = exp (- s)) by lra. apply exp_inv in E1. lra. }
      assert (I1 : exp s * exp (- s) = 1) by (rewrite <- exp_plus, Rplus_opp_r; apply exp_0).
      assert (I2 : exp (- b * h) * exp (b * h) = 1).
      { rewrite <- exp_plus. replace (- b * h + b * h) with 0 by ring. apply exp_0. }
      set (X := exp s) in *. set (Y := exp (- s)) in *. set (B := exp (b * h)) in *. set (B' := exp (- b * h)) in *.
      split.
      - transitivity ((B' * B * X - B' * (X * Y)) / (X - Y)); [field; auto|]. rewrite I1, I2. field. auto.
      - transitivity ((B' * (X * Y) - B' * B * Y) / (X - Y)); [field; auto|]. rewrite I1, I2. field. auto. }
    destruct Hc as [E0|E0]; rewrite E0.
    + rewrite <- (WM_rev amer (moves (Bi CRR) (- b) sigma dt)). f_equal.
      destruct (Q dt Hd) as [Q1 Q2]. cbn [moves map rev app]. unfold g. cbn [fst snd].
      replace (step_u CRR b sigma dt) with (exp (sigma * sqrt dt)) by reflexivity.
      replace (step_d CRR b sigma dt) with (exp (- (sigma * sqrt dt))) by reflexivity.
      rewrite Q1, Q2. cbn [step_u step_d]. rewrite <- !exp_Ropp, Ropp_involutive. reflexivity.
    + rewrite <- (WM_rev amer (moves Tri (- b) sigma dt)). f_equal.
      destruct (Q (dt / 2) ltac:(lra)) as [Q1 Q2]. unfold moves. cbv zeta. cbn [map rev app]. unfold g. cbn [fst snd].
      set (q := step_p CRR b sigma (dt / 2)) in *. set (q' := step_p CRR (- b) sigma (dt / 2)) in *.
      set (h := sigma * sqrt (dt / 2)) in *.
      assert (I1 : exp h * exp (- h) = 1) by (rewrite <- exp_plus, Rplus_opp_r; apply exp_0).
      assert (EB : exp (- b * dt) = exp (- b * (dt / 2)) * exp (- b * (dt / 2))).
      { rewrite <- exp_plus. f_equal. field. }
      rewrite <- !exp_Ropp, Ropp_involutive, Rinv_1, EB.
      assert (E2 : exp (2 * h) = exp h * exp h) by (rewrite <- exp_plus; f_equal; ring).
      assert (E3 : exp (- (2 * h)) = exp (- h) * exp (- h)) by (rewrite <- exp_plus; f_equal; ring).
      set (B := exp (- b * (dt / 2))) in *.
      assert (A1 : B * B * (q ^ 2 * exp (2 * h)) = (1 - q') ^ 2).
      { rewrite E2, <- Q1. ring. }
      assert (A3 : B * B * ((1 - q) ^ 2 * exp (- (2 * h))) = q' ^ 2).
      { rewrite E3, <- Q2. ring. }
      assert (A2 : B * B * (2 * q * (1 - q) * 1) = 2 * q' * (1 - q')).
      { rewrite <- Q1. rewrite <- Q2. rewrite <- I1. ring. }
      rewrite A1, A2, A3. reflexivity.
  - intros a Ha. exact (moves_pos S K t r b sigma n Hn Ht Hs c a Ha).
  - intros a Ha. split.
    + unfold g. cbn [fst]. rewrite <- Rmult_assoc, <- exp_plus.
      replace (- (r - b) * dt + - b * dt) with (- r * dt) by ring. ring.
    + unfold g. cbn [snd]. apply Rinv_l. apply Rgt_not_eq. exact (moves_pos' S K t r b sigma n Hn Ht Hs c a Ha).
Qed.

(* ------------------------------------------------------------------ C29 *)
(*@ C29_strike_monotone | Calls do not increase and puts do not decrease with the strike. *)
Lemma tree_strike_monotone : forall c S K1 K2 t r b sigma n (amer : bool),
  n <> 0%nat -> 0 < t -> sigma <> 0 -> weights_ok c b sigma (t / INR n) -> K1 <= K2 ->
  exists c1 c2 p1 p2,
    tree_price c (mkTree S K1 t r b sigma (the_type amer) n) true false = Ok (Price c1) /\
    tree_price c (mkTree S K2 t r b sigma (the_type amer) n) true false = Ok (Price c2) /\
    tree_price c (mkTree S K1 t r b sigma (the_type amer) n) false false = Ok (Price p1) /\
    tree_price c (mkTree S K2 t r b sigma (the_type amer) n) false false = Ok (Price p2) /\
    c2 <= c1 /\ p1 <= p2.
Proof.
  intros. rewrite !price_WM by auto. do 4 eexists. do 4 (split; [reflexivity|]).
  pose proof (exp_pos (- r * (t / INR n))). unfold zof. split.
  - apply WM_call_strike; auto.
  - apply WM_put_strike; auto.
Qed.

(*@ C29_strike_lipschitz | The price changes by at most exp(-rt) |K2-K1| (European), |K2-K1| (American, r >= 0). *)
Lemma tree_strike_lipschitz : forall c S K1 K2 t r b sigma n (call : bool),
  n <> 0%nat -> 0 < t -> sigma <> 0 -> weights_ok c b sigma (t / INR n) ->
  exists e1 e2 a1 a2,
    tree_price c (mkTree S K1 t r b sigma "european" n) call false = Ok (Price e1) /\
    tree_price c (mkTree S K2 t r b sigma "european" n) call false = Ok (Price e2) /\
    tree_price c (mkTree S K1 t r b sigma "american" n) call false = Ok (Price a1) /\
    tree_price c (mkTree S K2 t r b sigma "american" n) call false = Ok (Price a2) /\
    Rabs (e2 - e1) <= exp (- r * t) * Rabs (K2 - K1) /\
    (0 <= r -> Rabs (a2 - a1) <= Rabs (K2 - K1)).
Proof.
  intros c S K1 K2 t r b sigma n call Hn Ht Hs Hw.
  change "european"%string with (the_type false). change "american"%string with (the_type true).
  rewrite !price_WM by auto. do 4 eexists. do 4 (split; [reflexivity|]).
  pose proof (exp_pos (- r * (t / INR n))) as HD.
  assert (Hz : zof call = 1 \/ zof call = -1) by (destruct call; auto).
  pose proof (moves_sum t b sigma n c) as HSum. split.
  - rewrite <- (Df_pow t r n) by auto.
    pose proof (WM_euro_lip _ _ Hw HD HSum (zof call) K1 K2 n S Hz).
    pose proof (WM_euro_lip _ _ Hw HD HSum (zof call) K2 K1 n S Hz).
    rewrite (Rabs_minus_sym K1 K2) in H0. apply Rabs_le. lra.
  - intro Hr. pose proof (Df_le_1 r t n Hn Ht Hr) as D1.
    pose proof (WM_amer_lip _ _ Hw HD HSum (zof call) K1 K2 n S Hz D1).
    pose proof (WM_amer_lip _ _ Hw HD HSum (zof call) K2 K1 n S Hz D1).
    rewrite (Rabs_minus_sym K1 K2) in H0. apply Rabs_le. lra.
Qed.

(*@ C29_jointly_convex | Prices are jointly convex in (S, K): in particular butterflies cost nothing negative. *)
Lemma tree_convex : forall c S1 S2 K1 K2 t r b sigma n (amer call : bool) l,
  n <> 0%nat -> 0 < t -> sigma <> 0 -> weights_ok c b sigma (t / INR n) -> 0 <= l <= 1 ->
  exists v1 v2 v,
    tree_price c (mkTree S1 K1 t r b sigma (the_type amer) n) call false = Ok (Price v1) /\
    tree_price c (mkTree S2 K2 t r b sigma (the_type amer) n) call false = Ok (Price v2) /\
    tree_price c (mkTree (l * S1 + (1 - l) * S2) (l * K1 + (1 - l) * K2) t r b sigma (the_type amer) n) call false
      = Ok (Price v) /\
    v <= l * v1 + (1 - l) * v2.
Proof.
  intros. rewrite !price_WM by auto. do 3 eexists. do 3 (split; [reflexivity|]).
  apply WM_convex; auto. apply exp_pos.
Qed.

(*@ C29_spot_monotone | Calls do not decrease and puts do not increase with the spot. *)
Lemma tree_spot_monotone : forall c S1 S2 K t r b sigma n (amer : bool),
  n <> 0%nat -> 0 < t -> sigma <> 0 -> weights_ok c b sigma (t / INR n) -> S1 <= S2 ->
  exists c1 c2 p1 p2,
    tree_price c (mkTree S1 K t r b sigma (the_type amer) n) true false = Ok (Price c1) /\
    tree_price c (mkTree S2 K t r b sigma (the_type amer) n) true false = Ok (Price c2) /\
    tree_price c (mkTree S1 K t r b sigma (the_type amer) n) false false = Ok (Price p1) /\
    tree_price c (mkTree S2 K t r b sigma (the_type amer) n) false false = Ok (Price p2) /\
    c1 <= c2 /\ p2 <= p1.
Proof.
  intros. rewrite !price_WM by auto. do 4 eexists. do 4 (split; [reflexivity|]).
  pose proof (exp_pos (- r * (t / INR n))). unfold zof. split.
  - apply WM_call_spot; auto. intros a. apply moves_pos; auto.
  - apply WM_put_spot; auto. intros a. apply moves_pos; auto.
Qed.

(*@ C26_upper_bounds | With b <= r calls are worth at most the spot; with r >= 0 puts are worth at most the strike. *)
Lemma tree_upper_bounds : forall c S K t r b sigma n (amer : bool),
  n <> 0%nat -> 0 < t -> sigma <> 0 -> c <> Bi JR -> weights_ok c b sigma (t / INR n) -> 0 <= S -> 0 <= K ->
  exists vc vp,
    tree_price c (mkTree S K t r b sigma (the_type amer) n) true false = Ok (Price vc) /\
    tree_price c (mkTree S K t r b sigma (the_type amer) n) false false = Ok (Price vp) /\
    (b <= r -> vc <= S) /\ (0 <= r -> vp <= K).
Proof.
  intros c S K t r b sigma n amer Hn Ht Hs Hc Hw HS HK. rewrite !price_WM by auto.
  do 2 eexists. do 2 (split; [reflexivity|]). unfold zof.
  pose proof (exp_pos (- r * (t / INR n))) as HD. pose proof (dt_pos t n Hn Ht). split; intro.
  - apply WM_call_le_spot; auto.
    + intros a. apply moves_pos; auto.
    + rewrite moves_forward by auto. rewrite <- exp_plus, <- exp_0. apply exp_le_mono. nra.
  - apply WM_put_le_strike; auto.
    + apply moves_sum.
    + intros a. apply moves_pos; auto.
    + apply Df_le_1; auto.
Qed.

(*@ C26_american_put_call | With b = r >= 0: S - K <= C_am - P_am <= S - K exp(-rt). *)
Lemma tree_american_put_call : forall c S K t r sigma n,
  n <> 0%nat -> 0 < t -> sigma <> 0 -> c <> Bi JR -> weights_ok c r sigma (t / INR n) ->
  0 <= S -> 0 <= K -> 0 <= r ->
  exists vc vp,
    tree_price c (mkTree S K t r r sigma "american" n) true false = Ok (Price vc) /\
    tree_price c (mkTree S K t r r sigma "american" n) false false = Ok (Price vp) /\
    S - K <= vc - vp <= S - K * exp (- r * t).
Proof.
  intros c S K t r sigma n Hn Ht Hs Hc Hw HS HK Hr. change "american"%string with (the_type true).
  rewrite !price_WM by auto. do 2 eexists. do 2 (split; [reflexivity|]). unfold zof.
  rewrite <- (Df_pow t r n) by auto.
  pose proof (exp_pos (- r * (t / INR n))) as HD. apply WM_amer_parity; auto.
  - apply moves_sum.
  - intros a. apply moves_pos; auto.
  - apply Df_le_1; auto.
  - rewrite moves_forward by auto. rewrite <- exp_plus.
    replace (- r * (t / INR n) + r * (t / INR n)) with 0 by ring. apply exp_0.
Qed.

(* ------------------------------------------------------------------ C30 *)
(*@ C30_trinomial_is_two_binomial | European trinomial with n steps = European CRR with 2n steps; American trinomial <= American CRR with 2n steps when q is a probability. *)
Lemma trinomial_two_binomial : forall S K t r b sigma n (call : bool),
  n <> 0%nat -> 0 < t -> sigma <> 0 ->
  exists v va vb,
    tree_price Tri (mkTree S K t r b sigma "european" n) call false = Ok (Price v) /\
    tree_price (Bi CRR) (mkTree S K t r b sigma "european" (2 * n)) call false = Ok (Price v) /\
    tree_price Tri (mkTree S K t r b sigma "american" n) call false = Ok (Price va) /\
    tree_price (Bi CRR) (mkTree S K t r b sigma "american" (2 * n)) call false = Ok (Price vb) /\
    (weights_ok (Bi CRR) b sigma (t / INR (2 * n)) -> va <= vb).
Proof.
  intros S K t r b sigma n call Hn Ht Hs.
  change "european"%string with (the_type false). change "american"%string with (the_type true).
  assert (H2 : (2 * n)%nat <> 0%nat) by lia.
  rewrite !price_WM by auto.
  assert (Edt : t / INR (2 * n) = t / INR n / 2).
  { rewrite mult_INR. change (INR 2) with (1 + 1). field. now apply not_0_INR. }
  rewrite Edt. set (dt := t / INR n).
  set (q := step_p CRR b sigma (dt / 2)). set (h := sigma * sqrt (dt / 2)).
  assert (EDf : exp (- r * dt) = exp (- r * (dt / 2)) * exp (- r * (dt / 2))).
  { rewrite <- exp_plus. f_equal. field. }
  assert (E2 : exp (2 * h) = exp h * exp h) by (rewrite <- exp_plus; f_equal; ring).
  assert (E3 : exp (- (2 * h)) = exp (- h) * exp (- h)) by (rewrite <- exp_plus; f_equal; ring).
  assert (I1 : exp h * exp (- h) = 1) by (rewrite <- exp_plus, Rplus_opp_r; apply exp_0).
  assert (Em : moves Tri b sigma dt = [(q * q, exp h * exp h); (1 - q * q - (1 - q) * (1 - q), 1); ((1 - q) * (1 - q), exp (- h) * exp (- h))]).
  { unfold moves. cbv zeta. fold q h. rewrite E2, E3.
    replace (q ^ 2) with (q * q) by ring. replace ((1 - q) ^ 2) with ((1 - q) * (1 - q)) by ring.
    replace (2 * q * (1 - q)) with (1 - q * q - (1 - q) * (1 - q)) by ring. reflexivity. }
  do 3 eexists. split; [reflexivity|]. split; [|split; [reflexivity|split; [reflexivity|]]].
  - do 2 f_equal. unfold WM. rewrite Em, EDf. rewrite <- WT_WGe. rewrite WT_W_euro by auto.
    unfold moves. rewrite <- W_WGe. reflexivity.
  - intro Hw. unfold WM. rewrite Em, EDf. rewrite <- WT_WG. unfold moves. rewrite <- W_WG.
    cbn [step_u step_d]. fold h q. apply WT_W_amer; auto.
    + pose proof (Hw _ (or_introl eq_refl)) as A1. pose proof (Hw _ (or_intror (or_introl eq_refl))) as A2.
      cbn [fst] in A1, A2. fold q in A1, A2. lra.
    + apply exp_pos.
Qed.

(* ------------------------------------------------------------------ C31 *)
(*@ C31_crr_probability | CRR's weights are probabilities iff |b| sqrt(dt) <= sigma. *)
Lemma crr_weights : forall b sigma dt, 0 < dt -> 0 < sigma ->
  (weights_ok (Bi CRR) b sigma dt <-> Rabs b * sqrt dt <= sigma).
Proof.
  intros b sigma dt Hd Hs.
  pose proof (crr_p_range 0 0 dt 0 b sigma ""%string 1 ltac:(auto) Hd Hs) as H.
  rewrite link_p in H by (auto; lra). replace (dt / INR 1) with dt in H by (simpl; field).
  rewrite <- H. unfold weights_ok, moves. split.
  - intro A. pose proof (A _ (or_introl eq_refl)) as A1. pose proof (A _ (or_intror (or_introl eq_refl))) as A2.
    cbn [fst] in A1, A2. lra.
  - intros A a [<-|[<-|[]]]; cbn [fst]; lra.
Qed.

(*@ C31_trinomial_probability | The trinomial weights are probabilities iff |b| sqrt(dt/2) <= sigma. *)
Lemma trinomial_weights : forall b sigma dt, 0 < dt -> 0 < sigma ->
  (weights_ok Tri b sigma dt <-> Rabs b * sqrt (dt / 2) <= sigma).
Proof.
  intros b sigma dt Hd Hs. rewrite <- crr_weights by lra.
  unfold weights_ok, moves. cbv zeta. set (q := step_p CRR b sigma (dt / 2)). split.
  - intro A. pose proof (A _ (or_intror (or_introl eq_refl))) as A2. cbn [fst] in A2.
    assert (0 <= q <= 1) by nra.
    intros a [<-|[<-|[]]]; cbn [fst]; lra.
  - intro A. pose proof (A _ (or_introl eq_refl)) as A1. pose proof (A _ (or_intror (or_introl eq_refl))) as A2.
    cbn [fst] in A1, A2. intros a [<-|[<-|[<-|[]]]]; cbn [fst]; nra.
Qed.

(*@ C31_jr_tian_probability | JR and TIAN weights are always probabilities; TIAN's moves straddle the forward. *)
Lemma jr_tian_weights : forall b sigma dt, 0 < dt -> sigma <> 0 ->
  weights_ok (Bi JR) b sigma dt /\ weights_ok (Bi TIAN) b sigma dt /\
  0 < step_d TIAN b sigma dt < exp (b * dt) /\ exp (b * dt) < step_u TIAN b sigma dt.
Proof.
  intros b sigma dt Hd Hs. split; [|split].
  - unfold weights_ok, moves. cbn [step_p]. intros a [<-|[<-|[]]]; cbn [fst]; lra.
  - pose proof (tian_p_01 0 0 dt 0 b sigma ""%string 1 ltac:(auto) Hd Hs) as H.
    rewrite link_p in H by (auto; lra). replace (dt / INR 1) with dt in H by (simpl; field).
    unfold weights_ok, moves. intros a [<-|[<-|[]]]; cbn [fst]; lra.
  - pose proof (tian_order 0 0 dt 0 b sigma ""%string 1 ltac:(auto) Hd Hs) as H.
    rewrite link_u, link_d in H by (auto; lra). replace (dt / INR 1) with dt in H by (simpl; field). exact H.
Qed.

(*@ C31_negative_price_refuted | Outside that range prices can be negative: any at-the-money one-step CRR European put with b sqrt(t) > sigma. *)
Lemma crr_negative_price : forall S t r b sigma,
  0 < S -> 0 < t -> 0 < sigma -> sigma < b * sqrt t ->
  exists v, tree_price (Bi CRR) (mkTree S S t r b sigma "european" 1) false false = Ok (Price v) /\ v < 0.
Proof.
  intros S t r b sigma HS Ht Hs Hb. change "european"%string with (the_type false).
  rewrite price_WM by (auto; lra). eexists; split; [reflexivity|].
  unfold WM, zof. replace (t / INR 1) with t by (simpl; field).
  assert (Hq : 0 < sqrt t) by (apply sqrt_lt_R0; auto).
  assert (Hqq : sqrt t * sqrt t = t) by (apply sqrt_sqrt; lra).
  cbn [WGe moves map fst snd sumR fold_right step_p step_u step_d].
  set (s := sigma * sqrt t). assert (0 < s) by (unfold s; nra).
  assert (U : 1 < exp s) by (rewrite <- exp_0; apply exp_increasing; lra).
  assert (D : exp (- s) < 1) by (rewrite <- exp_0; apply exp_increasing; lra).
  assert (B : exp s < exp (b * t)) by (apply exp_increasing; unfold s; nra).
  rewrite (Rmax_right (-1 * (S * exp s - S))) by nra.
  rewrite (Rmax_left (-1 * (S * exp (- s) - S))) by nra.
  set (p := (exp (b * t) - exp (- s)) / (exp s - exp (- s))).
  assert (P : 1 < p).
  { unfold p. apply Rmult_lt_reg_r with (exp s - exp (- s)); [lra|].
    unfold Rdiv. rewrite Rmult_assoc, Rinv_l by lra. lra. }
  assert (0 < S * (1 - exp (- s))) by (apply Rmult_lt_0_compat; lra).
  rewrite <- (Rmult_0_r (exp (- r * t))). apply Rmult_lt_compat_l; [apply exp_pos|].
  replace (-1 * (S * exp (- s) - S)) with (S * (1 - exp (- s))) by ring. nra.
Qed.

(* ------------------------------------------------------------------ C32 *)
(*@ C32_unknown_type | Any other type string: binomial classes raise UnboundLocalError; the trinomial class returns max(0, z (S d^n - K)), the payoff of the lowest terminal node. *)
Lemma unknown_type : forall (T : Type) (N : Num T) (o : TreeOption T) (call tree : bool),
  to_n o <> 0%nat -> to_type o <> "european"%string -> to_type o <> "american"%string ->
  (forall k, tree_price (Bi k) o call tree = Err UnboundLocalError) /\
  tree_price Tri o call false =
    Ok (Price (maxn (ofZ 0) (ofZ (if call then 1 else -1) * (to_S o * tri_u o ^ 0 * tri_d o ^ to_n o - to_K o))%num)).
Proof.
  intros T N o call tree Hn H1 H2. split.
  - intro k. destruct call; now apply bi_unknown_type.
  - destruct call; now apply tri_unknown_type.
Qed.
(*@ C32_zero_steps | n = 0 raises ZeroDivisionError in every class. *)
Lemma zero_steps : forall (T : Type) (N : Num T) c (o : TreeOption T) (call tree : bool),
  to_n o = 0%nat -> tree_price c o call tree = Err ZeroDivisionError.
Proof.
  intros T N c o call tree H. destruct c, call; unfold tree_price, bi_call, bi_put, tri_call, tri_put,
    bi_calc_price, tri_calc_price; rewrite H; reflexivity.
Qed.

(** concrete parameters used in the examples: probabilities are in [0,1] for all four classes *)
Lemma ex_weights c : weights_ok c (2/100) (1/5) (1 / INR 50).
Proof.
  assert (E : INR 50 = 50) by (simpl; lra). rewrite E.
  assert (Hb : Rabs (2/100) = 2/100) by (apply Rabs_pos_eq; lra).
  destruct c as [[]|].
  - apply crr_weights; try lra. rewrite Hb. assert (sqrt (1 / 50) <= 1) by (rewrite <- sqrt_1 at 2; apply sqrt_le_1_alt; lra).
    nra.
  - apply jr_tian_weights; lra.
  - apply jr_tian_weights; lra.
  - apply trinomial_weights; try lra. rewrite Hb.
    assert (sqrt (1 / 50 / 2) <= 1) by (rewrite <- sqrt_1 at 2; apply sqrt_le_1_alt; lra). nra.
Qed.
Lemma ex_weights_neg : weights_ok (Bi TIAN) (-2/100) (1/5) (1 / INR 50).
Proof.
  assert (E : INR 50 = 50) by (simpl; lra). rewrite E. apply jr_tian_weights; lra.
Qed.
