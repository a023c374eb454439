(** Tree prices in floating-point arithmetic (C68). *)
From Coq Require Import Reals QArith Qreals ZArith String List Arith Lra Lia Psatz.
From Verif Require Import Num Py Arr MTrees STrees MFloat SFloat PTrees MSpread PSpread PSpread3.
Import ListNotations.
Open Scope R_scope.

(** [float_weights] in terms of the model's definitions *)
Definition fweights (A : fp) (c : tree_class) (o : TreeOption R) : Prop :=
  let N := FNum A in
  match c with
  | Bi k => (k <> JR -> sub (bi_u k o) (bi_d k o) <> 0) /\ 0 <= bi_d k o /\ 0 <= bi_u k o /\ 0 <= bi_p k o /\ 0 <= sub (ofZ 1) (bi_p k o)
  | Tri => (let h := mul (to_sigma o) (sqrn (div (tri_dt o) (ofZ 2))) in sub (expn h) (expn (mul (opp (to_sigma o)) (sqrn (div (tri_dt o) (ofZ 2))))) <> 0) /\
      0 <= tri_pu o /\ 0 <= tri_pm o /\ 0 <= tri_pd o
  end.

Lemma fweights_spec A c S K t r b sigma ty n : float_weights A c t b sigma n -> fweights A c (mkTree S K t r b sigma ty n).
Proof. destruct c as [[]|]; exact (fun H => H). Qed.

Section Fl.
Variable A : fp.
Hypothesis HA : monotone_fp A.
#[local] Instance NF : Num R := FNum A.
Notation rd := (rnd A).

Lemma rd_mono x y : x <= y -> rd x <= rd y. Proof. apply HA. Qed.
Lemma rd_opp x : rd (- x) = - rd x. Proof. apply HA. Qed.
Lemma rd_idem x : rd (rd x) = rd x. Proof. apply HA. Qed.
Lemma rd_0 : rd 0 = 0. Proof. pose proof (rd_opp 0) as H. rewrite Ropp_0 in H. lra. Qed.
Lemma rd_1 : rd 1 = 1. Proof. apply HA. Qed.
Lemma rd_2 : rd 2 = 2. Proof. replace 2 with (2 * 1) by ring. apply HA, rd_1. Qed.
Lemma rd_pos x : 0 <= x -> 0 <= rd x. Proof. intro H. rewrite <- rd_0. now apply rd_mono. Qed.
Lemma pw_pos x k : 0 <= x -> 0 <= f_powi A x k. Proof. apply HA. Qed.
Lemma pw_0 x : f_powi A x 0 = 1. Proof. apply HA. Qed.
Lemma ex_pos x : 0 <= f_exp A x. Proof. unfold monotone_fp, is_float in HA. apply HA. Qed.
Lemma ex_float x : rd (f_exp A x) = f_exp A x. Proof. unfold monotone_fp, is_float in HA. apply HA. Qed.
Lemma rd_diff x y : rd x = x -> rd y = y -> x <> y -> rd (x - y) <> 0. Proof. unfold monotone_fp, is_float in HA. apply HA. Qed.
Lemma ex_mono x y : x <= y -> f_exp A x <= f_exp A y. Proof. apply HA. Qed.

Definition zZ (call : bool) : Z := if call then 1%Z else (-1)%Z.
Lemma rd_z call : rd (IZR (zZ call)) = zof call.
Proof. destruct call; cbn [zZ zof]; [apply rd_1|]. change (IZR (-1)) with (- (1)). now rewrite rd_opp, rd_1. Qed.

Definition fclip (x : R) : R := rd (rd (Rabs x + x) / rd 2).
Lemma fclip_pos x : 0 <= fclip x.
Proof. unfold fclip. rewrite rd_2. apply rd_pos. assert (0 <= rd (Rabs x + x)) by (apply rd_pos; unfold Rabs; destruct (Rcase_abs x); lra). lra. Qed.
Lemma fclip_mono x y : x <= y -> fclip x <= fclip y.
Proof. intro H. unfold fclip. rewrite rd_2. apply rd_mono. assert (rd (Rabs x + x) <= rd (Rabs y + y)) by (apply rd_mono; unfold Rabs; destruct (Rcase_abs x), (Rcase_abs y); lra). lra. Qed.

Definition fcont (p1 p0 Df vu vd : R) : R := rd (rd (rd (p1 * vu) + rd (p0 * vd)) * Df).
Lemma fcont_mono p1 p0 Df Df' vu vd vu' vd' : 0 <= p1 -> 0 <= p0 -> 0 <= Df <= Df' -> 0 <= vu <= vu' -> 0 <= vd <= vd' -> 0 <= fcont p1 p0 Df vu vd <= fcont p1 p0 Df' vu' vd'.
Proof.
  intros H1 H0 HD Hu Hd. unfold fcont. assert (X : 0 <= rd (rd (p1 * vu) + rd (p0 * vd)) <= rd (rd (p1 * vu') + rd (p0 * vd'))).
  { split; [apply rd_pos, Rplus_le_le_0_compat; apply rd_pos; nra|apply rd_mono, Rplus_le_compat; apply rd_mono; nra]. }
  split; [apply rd_pos; nra|apply rd_mono; nra].
Qed.
Definition fcont3 (pu pm pd Df v2 v1 v0 : R) : R := rd (rd (rd (rd (pu * v2) + rd (pm * v1)) + rd (pd * v0)) * Df).
Lemma fcont3_mono pu pm pd Df Df' v2 v1 v0 w2 w1 w0 : 0 <= pu -> 0 <= pm -> 0 <= pd -> 0 <= Df <= Df' -> 0 <= v2 <= w2 -> 0 <= v1 <= w1 -> 0 <= v0 <= w0 ->
  0 <= fcont3 pu pm pd Df v2 v1 v0 <= fcont3 pu pm pd Df' w2 w1 w0.
Proof.
  intros Hu Hm Hd HD H2 H1 H0. unfold fcont3. assert (Y : 0 <= rd (rd (pu * v2) + rd (pm * v1)) <= rd (rd (pu * w2) + rd (pm * w1))).
  { split; [apply rd_pos, Rplus_le_le_0_compat; apply rd_pos; nra|apply rd_mono, Rplus_le_compat; apply rd_mono; nra]. }
  assert (Z : 0 <= rd (pd * v0) <= rd (pd * w0)) by (split; [apply rd_pos; nra|apply rd_mono; nra]).
  assert (X : 0 <= rd (rd (rd (pu * v2) + rd (pm * v1)) + rd (pd * v0)) <= rd (rd (rd (pu * w2) + rd (pm * w1)) + rd (pd * w0))) by (split; [apply rd_pos; lra|apply rd_mono; lra]).
  split; [apply rd_pos; nra|apply rd_mono; nra].
Qed.
Lemma pymax_Rmax a b : pymax a b = Rmax a b.
Proof. unfold pymax. cbn [ltb NF FNum]. unfold Rltb, Rmax. destruct (Rlt_dec a b), (Rle_dec a b); lra. Qed.

(** exercise value of a node whose price factors are q1 = u ** i and q2 = d ** j *)
Definition fex (call : bool) (S K q1 q2 : R) : R := rd (zof call * rd (rd (rd (S * q1) * q2) - K)).

(** comparison of two backward recursions *)
Lemma bnode_mono n t1 t2 f1 f2 : (forall i, 0 <= t1 i <= t2 i) ->
  (forall j i vu vd wu wd, 0 <= vu <= wu -> 0 <= vd <= wd -> 0 <= f1 j i vu vd <= f2 j i wu wd) ->
  forall m i, 0 <= bnode n t1 f1 m i <= bnode n t2 f2 m i.
Proof. intros Ht Hf. induction m as [|m IH]; intro i; cbn [bnode]; [apply Ht|]. now apply Hf. Qed.
Lemma tnode_mono n t1 t2 f1 f2 : (forall i, 0 <= t1 i <= t2 i) ->
  (forall j i v2 v1 v0 w2 w1 w0, 0 <= v2 <= w2 -> 0 <= v1 <= w1 -> 0 <= v0 <= w0 -> 0 <= f1 j i v2 v1 v0 <= f2 j i w2 w1 w0) ->
  forall m i, 0 <= tnode n t1 f1 m i <= tnode n t2 f2 m i.
Proof. intros Ht Hf. induction m as [|m IH]; intro i; cbn [tnode]; [apply Ht|]. now apply Hf. Qed.

Lemma max_mono a b a' b' (am am' : bool) : (am = true -> am' = true) -> a <= a' -> 0 <= b <= b' ->
  0 <= (if am then Rmax a b else b) <= (if am' then Rmax a' b' else b').
Proof.
  intros H Ha Hb. pose proof (Rmax_l a b). pose proof (Rmax_r a b). pose proof (Rmax_l a' b'). pose proof (Rmax_r a' b').
  destruct am; [rewrite (H eq_refl)|destruct am'; lra]. split; [lra|]. apply Rmax_lub; lra.
Qed.

(** Two options whose computed moves and weights agree, with comparable exercise values and discount factors *)
Lemma bi_value_le k o1 o2 call am1 am2 : to_n o1 = to_n o2 -> bi_u k o1 = bi_u k o2 -> bi_d k o1 = bi_d k o2 -> bi_p k o1 = bi_p k o2 -> bi_Df o1 <= bi_Df o2 ->
  (am1 = true -> am2 = true) -> fweights A (Bi k) o1 ->
  (forall q1 q2, 0 <= q1 -> 0 <= q2 -> fex call (to_S o1) (to_K o1) q1 q2 <= fex call (to_S o2) (to_K o2) q1 q2) ->
  0 <= bi_value k o1 (zZ call) am1 (to_n o1) 0 <= bi_value k o2 (zZ call) am2 (to_n o2) 0.
Proof.
  intros En Eu Ed Ep HD Ham (_ & Hd0 & Hu0 & Hp1 & Hp0) Hex. change (@bi_p R (FNum A)) with (@bi_p R NF) in *. unfold bi_value. rewrite <- En, <- Eu, <- Ed, <- Ep. set (p := bi_p k o1) in *. set (u := bi_u k o1) in *. set (d := bi_d k o1) in *.
  assert (EX : forall S K j i, bi_ex (zZ call) S K u d j i = fex call S K (f_powi A u i) (f_powi A d (j - i))) by (intros S K j i; unfold bi_ex, fex; cbn [ofZ mul sub powi NF FNum]; now rewrite rd_z).
  apply bnode_mono.
  - intro i. rewrite !EX. split; [apply fclip_pos|apply fclip_mono, Hex; now apply pw_pos].
  - intros j i vu vd wu wd Hu Hd. cbv zeta. rewrite !pymax_Rmax, !EX. apply max_mono; [exact Ham|apply Hex; now apply pw_pos|]. apply (fcont_mono p (rd (rd 1 - p)) (bi_Df o1) (bi_Df o2)); try assumption. split; [apply ex_pos|exact HD].
Qed.

Lemma tri_value_le o1 o2 call am1 am2 : to_n o1 = to_n o2 -> tri_u o1 = tri_u o2 -> tri_d o1 = tri_d o2 -> tri_pu o1 = tri_pu o2 -> tri_pd o1 = tri_pd o2 -> tri_Df o1 <= tri_Df o2 ->
  (am1 = true -> am2 = true) -> fweights A Tri o1 ->
  (forall q1 q2, 0 <= q1 -> 0 <= q2 -> fex call (to_S o1) (to_K o1) q1 q2 <= fex call (to_S o2) (to_K o2) q1 q2) ->
  0 <= tri_value o1 (zZ call) am1 (to_n o1) 0 <= tri_value o2 (zZ call) am2 (to_n o2) 0.
Proof.
  intros En Eu Ed Epu Epd HD Ham (_ & Hpu & Hpm & Hpd) Hex.
  assert (Epm : tri_pm o1 = tri_pm o2) by (unfold tri_pm; now rewrite Epu, Epd).
  unfold tri_value. rewrite <- En, <- Eu, <- Ed, <- Epu, <- Epd, <- Epm. change (@tri_pu R (FNum A)) with (@tri_pu R NF) in *. change (@tri_pm R (FNum A)) with (@tri_pm R NF) in *. change (@tri_pd R (FNum A)) with (@tri_pd R NF) in *.
  set (u := tri_u o1) in *. set (d := tri_d o1) in *.
  assert (EX : forall S K i j, tri_exercise (zZ call) S K u d i j = fex call S K (f_powi A u (posdiff i j)) (f_powi A d (posdiff j i))) by (intros S K j i; unfold tri_exercise, fex; cbn [ofZ mul sub powi NF FNum]; now rewrite rd_z).
  apply tnode_mono.
  - intro i. rewrite !EX. cbn [maxn ofZ NF FNum]. change (IZR 0) with 0. rewrite rd_0. split; [apply Rmax_l|]. apply Rle_max_compat_l, Hex; apply pw_pos, ex_pos.
  - intros j i v2 v1 v0 w2 w1 w0 H2 H1 H0. cbv zeta. cbn [maxn NF FNum]. rewrite !EX. apply max_mono; [exact Ham|apply Hex; apply pw_pos, ex_pos|].
    apply (fcont3_mono (tri_pu o1) (tri_pm o1) (tri_pd o1) (tri_Df o1) (tri_Df o2)); try assumption. split; [apply ex_pos|exact HD].
Qed.

Definition fvalue c o call am := match c with Bi k => bi_value k o (zZ call) am (to_n o) 0 | Tri => tri_value o (zZ call) am (to_n o) 0 end.
Lemma fprice c o call am : to_n o <> 0%nat -> to_type o = the_type am -> @tree_price R (FNum A) c o call false = Ok (Price (fvalue c o call am)).
Proof.
  intros Hn Ht. destruct c as [k|]; unfold fvalue, tree_price.
  - destruct call; exact (bi_price_value k o _ am Hn Ht).
  - destruct call; exact (tri_price_value o _ am Hn Ht).
Qed.

Lemma fvalue_le c S1 K1 r1 S2 K2 r2 t b s ty1 ty2 n call am1 am2 : fweights A c (mkTree S1 K1 t r1 b s ty1 n) -> (am1 = true -> am2 = true) -> 0 <= t -> r2 <= r1 ->
  (forall q1 q2, 0 <= q1 -> 0 <= q2 -> fex call S1 K1 q1 q2 <= fex call S2 K2 q1 q2) ->
  0 <= fvalue c (mkTree S1 K1 t r1 b s ty1 n) call am1 <= fvalue c (mkTree S2 K2 t r2 b s ty2 n) call am2.
Proof.
  intros HW Ham Ht Hr Hex. assert (HD : f_exp A (rd (- r1 * rd (t / rd (IZR (Z.of_nat n))))) <= f_exp A (rd (- r2 * rd (t / rd (IZR (Z.of_nat n)))))).
  { apply ex_mono, rd_mono. assert (0 <= rd (t / rd (IZR (Z.of_nat n)))); [|nra]. apply rd_pos. assert (H : 0 <= rd (IZR (Z.of_nat n))) by (apply rd_pos, IZR_le; lia). unfold Rdiv. apply Rmult_le_pos; [lra|]. destruct H as [H|H]; [left; now apply Rinv_0_lt_compat|rewrite <- H, Rinv_0; lra]. }
  destruct c as [k|]; [apply (bi_value_le k)|apply tri_value_le]; try assumption; try reflexivity; destruct k; reflexivity.
Qed.
End Fl.

(*@ C68_american | In floating-point arithmetic, whatever the rounding, an American tree price is at least the European one, at least the computed payoff of immediate exercise, and neither is negative. *)
Lemma c68_american : forall A, monotone_fp A -> forall c S K t r b sigma n (call : bool), n <> 0%nat -> 0 <= t -> is_float A S -> is_float A K ->
  float_weights A c t b sigma n ->
  exists e a, @tree_price R (FNum A) c (mkTree S K t r b sigma "european" n) call false = Ok (Price e) /\
    @tree_price R (FNum A) c (mkTree S K t r b sigma "american" n) call false = Ok (Price a) /\
    0 <= e <= a /\ rnd A (if call then S - K else K - S) <= a.
Proof.
  intros A HA c S K t r b s n call Hn Ht HS HK HW0. pose proof (fweights_spec A c S K t r b s "european" n HW0) as HW. do 2 eexists. split; [exact (fprice A c (mkTree S K t r b s _ n) call false Hn eq_refl)|]. split; [exact (fprice A c (mkTree S K t r b s _ n) call true Hn eq_refl)|].
  split; [apply fvalue_le; try assumption; try lra; try easy; intros; lra|].
  assert (E : rnd A (if call then S - K else K - S) = fex A call S K 1 1).
  { unfold fex. rewrite !Rmult_1_r. unfold is_float in HS. rewrite !HS. destruct call; cbn [zof].
    - rewrite Rmult_1_l. symmetry. apply (rd_idem A HA).
    - replace (K - S) with (- (S - K)) by ring. rewrite (rd_opp A HA). replace (-1 * rnd A (S - K)) with (- rnd A (S - K)) by ring. now rewrite (rd_opp A HA), (rd_idem A HA). }
  rewrite E. unfold fvalue. destruct n as [|n']; [easy|]. destruct c as [k|].
  - unfold bi_value. cbn [to_n bnode]. cbv zeta. rewrite pymax_Rmax. eapply Rle_trans; [|apply Rmax_l]. rewrite Nat.sub_diag. unfold bi_ex. cbn [to_S to_K ofZ mul sub powi NF FNum]. rewrite (rd_z A HA). cbn [Nat.sub]. rewrite !(pw_0 A HA). right. reflexivity.
  - unfold tri_value. cbn [to_n tnode]. cbv zeta. cbn [maxn NF FNum]. eapply Rle_trans; [|apply Rmax_l]. rewrite Nat.sub_diag. unfold tri_exercise. cbn [to_S to_K ofZ mul sub powi NF FNum]. rewrite (rd_z A HA). change (posdiff 0 0) with 0%nat. rewrite !(pw_0 A HA). right. reflexivity.
Qed.

(*@ C68_strike | In floating-point arithmetic tree prices are monotone in the strike: calls do not increase, puts do not decrease. *)
Lemma c68_strike : forall A, monotone_fp A -> forall c S K1 K2 t r b sigma n (call am : bool), n <> 0%nat -> 0 <= t -> K1 <= K2 ->
  float_weights A c t b sigma n ->
  exists v1 v2, @tree_price R (FNum A) c (mkTree S K1 t r b sigma (the_type am) n) call false = Ok (Price v1) /\
    @tree_price R (FNum A) c (mkTree S K2 t r b sigma (the_type am) n) call false = Ok (Price v2) /\
    if call then v2 <= v1 else v1 <= v2.
Proof.
  intros A HA c S K1 K2 t r b s n call am Hn Ht HK HW0. pose proof (fweights_spec A c S K1 t r b s (the_type am) n HW0) as HW. do 2 eexists. split; [now apply (fprice A c (mkTree _ _ _ _ _ _ _ n) call am)|]. split; [now apply (fprice A c (mkTree _ _ _ _ _ _ _ n) call am)|].
  destruct call; apply fvalue_le; try assumption; try lra; try easy; intros q1 q2 H1 H2; unfold fex; cbn [zof]; apply (rd_mono A HA).
  - assert (rnd A (rnd A (rnd A (S * q1) * q2) - K2) <= rnd A (rnd A (rnd A (S * q1) * q2) - K1)) by (apply (rd_mono A HA); lra). lra.
  - assert (rnd A (rnd A (rnd A (S * q1) * q2) - K2) <= rnd A (rnd A (rnd A (S * q1) * q2) - K1)) by (apply (rd_mono A HA); lra). lra.
Qed.

(*@ C68_spot | In floating-point arithmetic tree prices are monotone in the spot: calls do not decrease, puts do not increase. *)
Lemma c68_spot : forall A, monotone_fp A -> forall c S1 S2 K t r b sigma n (call am : bool), n <> 0%nat -> 0 <= t -> S1 <= S2 ->
  float_weights A c t b sigma n ->
  exists v1 v2, @tree_price R (FNum A) c (mkTree S1 K t r b sigma (the_type am) n) call false = Ok (Price v1) /\
    @tree_price R (FNum A) c (mkTree S2 K t r b sigma (the_type am) n) call false = Ok (Price v2) /\
    if call then v1 <= v2 else v2 <= v1.
Proof.
  intros A HA c S1 S2 K t r b s n call am Hn Ht HS HW0. pose proof (fweights_spec A c S1 K t r b s (the_type am) n HW0) as HW. do 2 eexists. split; [now apply (fprice A c (mkTree _ _ _ _ _ _ _ n) call am)|]. split; [now apply (fprice A c (mkTree _ _ _ _ _ _ _ n) call am)|].
  assert (M : forall q1 q2, 0 <= q1 -> 0 <= q2 -> rnd A (rnd A (rnd A (S1 * q1) * q2) - K) <= rnd A (rnd A (rnd A (S2 * q1) * q2) - K)).
  { intros q1 q2 H1 H2. apply (rd_mono A HA), Rplus_le_compat_r, (rd_mono A HA), Rmult_le_compat_r, (rd_mono A HA); nra. }
  destruct call; apply fvalue_le; try assumption; try lra; try easy; intros q1 q2 H1 H2; unfold fex; cbn [zof]; apply (rd_mono A HA); specialize (M q1 q2 H1 H2); lra.
Qed.

(*@ C68_rate | In floating-point arithmetic, with the cost of carry fixed, tree prices do not increase with the interest rate. *)
Lemma c68_rate : forall A, monotone_fp A -> forall c S K t r1 r2 b sigma n (call am : bool), n <> 0%nat -> 0 <= t -> r1 <= r2 ->
  float_weights A c t b sigma n ->
  exists v1 v2, @tree_price R (FNum A) c (mkTree S K t r1 b sigma (the_type am) n) call false = Ok (Price v1) /\
    @tree_price R (FNum A) c (mkTree S K t r2 b sigma (the_type am) n) call false = Ok (Price v2) /\ v2 <= v1.
Proof.
  intros A HA c S K t r1 r2 b s n call am Hn Ht Hr HW0. pose proof (fweights_spec A c S K t r1 b s (the_type am) n HW0) as HW. do 2 eexists. split; [now apply (fprice A c (mkTree _ _ _ _ _ _ _ n) call am)|]. split; [now apply (fprice A c (mkTree _ _ _ _ _ _ _ n) call am)|].
  apply fvalue_le; try assumption; try lra; try easy. intros; lra.
Qed.

Lemma crr_weights A (HA : monotone_fp A) t b s n : let dt := rnd A (t / rnd A (INR n)) in let h := rnd A (s * f_sqrt A dt) in
  rnd A (b * dt) <= h -> 1 < f_exp A h -> 1 <= f_exp A (rnd A (b * dt)) * f_exp A h -> float_weights A (Bi CRR) t b s n.
Proof.
  intros dt h HM Hu1 HMu1. set (o := mkTree 0 0 t 0 b s "european" n).
  change (fweights A (Bi CRR) o). assert (Edt : @bi_dt R (FNum A) o = dt) by (unfold bi_dt, ofnat, dt; cbn [div ofZ to_t to_n o FNum]; now rewrite <- INR_IZR_INZ).
    assert (Eu : @bi_u R (FNum A) CRR o = f_exp A h) by (unfold bi_u; rewrite Edt; reflexivity).
    assert (Ed : @bi_d R (FNum A) CRR o = rnd A (1 / f_exp A h)) by (unfold bi_d; rewrite Eu; cbn [div ofZ FNum]; change (IZR 1) with 1; now rewrite (rd_1 A HA)).
    set (u := f_exp A h) in *. assert (H1 : 0 <= 1 / u <= 1). { split; [apply Rlt_le, Rdiv_lt_0_compat; lra|]. apply (Rmult_le_reg_r u); [lra|]. replace (1 / u * u) with 1 by (field; lra). lra. }
    set (d := rnd A (1 / u)) in *. assert (Hd : 0 <= d <= 1) by (split; [apply (rd_pos A HA); lra|apply Rle_trans with (rnd A 1); [|rewrite (rd_1 A HA); lra]; apply (rd_mono A HA); lra]).
    assert (Fu : is_float A u) by exact (ex_float A HA h). assert (Fd : is_float A d) by apply (rd_idem A HA).
    set (M := f_exp A (rnd A (b * dt))). assert (HM1 : d <= M). { replace M with (rnd A M) by apply (ex_float A HA). apply (rd_mono A HA), (Rmult_le_reg_r u); [lra|]. replace (1 / u * u) with 1 by (field; lra). exact HMu1. } assert (HMu : M <= u) by now apply (ex_mono A HA).
    assert (NZ : rnd A (u - d) <> 0) by (apply (rd_diff A HA); try assumption; lra). assert (P0 : 0 <= rnd A (M - d) <= rnd A (u - d)) by (split; [apply (rd_pos A HA); lra|apply (rd_mono A HA); lra]).
    assert (EP : @bi_p R (FNum A) CRR o = rnd A (rnd A (M - d) / rnd A (u - d))) by (unfold bi_p; rewrite Eu, Ed, Edt; reflexivity).
    assert (Q : 0 <= rnd A (M - d) / rnd A (u - d) <= 1). { split; [unfold Rdiv; apply Rmult_le_pos; [lra|left; apply Rinv_0_lt_compat; lra]|]. apply (Rmult_le_reg_r (rnd A (u - d))); [lra|]. replace (rnd A (M - d) / rnd A (u - d) * rnd A (u - d)) with (rnd A (M - d)) by (field; lra). lra. }
    assert (PP : 0 <= rnd A (rnd A (M - d) / rnd A (u - d)) <= 1) by (split; [apply (rd_pos A HA); lra|apply Rle_trans with (rnd A 1); [|rewrite (rd_1 A HA); lra]; apply (rd_mono A HA); lra]).
    cbn [fweights]. rewrite Eu, Ed, EP. cbn [sub ofZ FNum]. change (IZR 1) with 1. rewrite (rd_1 A HA). split; [intros _; exact NZ|]. split; [lra|]. split; [lra|]. split; [lra|]. apply (rd_pos A HA). lra.
Qed.

(*@ C68_weights | The weights the code computes are valid for every JR tree, and for CRR trees when b >= 0, the computed drift per step is at most the computed volatility per step, and the computed up move is greater than 1. *)
Lemma c68_weights : forall A, monotone_fp A -> forall t b sigma n, 0 <= t ->
  let dt := rnd A (t / rnd A (INR n)) in let h := rnd A (sigma * f_sqrt A dt) in
  float_weights A (Bi JR) t b sigma n /\ (0 <= b -> rnd A (b * dt) <= h -> 1 < f_exp A h -> float_weights A (Bi CRR) t b sigma n).
Proof.
  intros A HA t b s n Ht dt h. set (o := mkTree 0 0 t 0 b s "european" n). split.
  - change (fweights A (Bi JR) o). cbn [fweights]. split; [easy|]. split; [apply (ex_pos A HA)|]. split; [apply (ex_pos A HA)|]. cbn [bi_p div sub ofZ FNum]. change (IZR 1) with 1. change (IZR 2) with 2. rewrite (rd_1 A HA), (rd_2 A HA).
    assert (X : 0 <= rnd A (1 / 2) <= 1) by (split; [apply (rd_pos A HA); lra|apply Rle_trans with (rnd A 1); [|rewrite (rd_1 A HA); lra]; apply (rd_mono A HA); lra]). split; [lra|]. apply (rd_pos A HA). lra.
  - intros Hb HM Hu1. apply crr_weights; try assumption.
    assert (Hdt : 0 <= dt). { apply (rd_pos A HA). assert (H : 0 <= rnd A (INR n)) by (apply (rd_pos A HA), pos_INR). unfold Rdiv. apply Rmult_le_pos; [lra|]. destruct H as [H|H]; [left; now apply Rinv_0_lt_compat|rewrite <- H, Rinv_0; lra]. }
    fold dt h. assert (HM1 : 1 <= f_exp A (rnd A (b * dt))). { replace 1 with (f_exp A 0) by apply HA. apply (ex_mono A HA), (rd_pos A HA). nra. } nra.
Qed.

(** ** two-asset tree *)
Section Fl2.
Variable A : fp.
Hypothesis HA : monotone_fp A.
#[local] Instance NF2 : Num R := FNum A.

Lemma V3_le (o1 o2 : Spread3D R) n g : s3_r o1 = s3_r o2 -> s3_dt o1 = s3_dt o2 -> (forall m j i, 0 <= g m j i) ->
  forall m j i, 0 <= V3 o1 n "european" g m j i <= V3 o2 n "american" g m j i.
Proof.
  intros Er Ed Hg. induction m as [|m IH]; intros j i; cbn [V3 String.eqb Ascii.eqb Bool.eqb]; [split; [apply Hg|lra]|]. rewrite <- Er, <- Ed. cbn [lit add mul expn maxn opp NF2 FNum].
  set (Df := f_exp A _). assert (HD : 0 <= Df) by apply (ex_pos A HA). set (q := rnd A (Q2R (25 # 100))). assert (Hq : 0 <= q) by (apply (rd_pos A HA); unfold Q2R; cbn; lra).
  assert (P : forall x y x' y', 0 <= x <= x' -> 0 <= y <= y' -> 0 <= rnd A (x + y) <= rnd A (x' + y')) by (intros; split; [apply (rd_pos A HA)|apply (rd_mono A HA)]; lra).
  assert (M : forall c x x', 0 <= c -> 0 <= x <= x' -> 0 <= rnd A (c * x) <= rnd A (c * x')) by (intros; split; [apply (rd_pos A HA)|apply (rd_mono A HA)]; nra).
  pose proof (P _ _ _ _ (P _ _ _ _ (P _ _ _ _ (IH j i) (IH (j + 1)%nat i)) (IH j (i + 1)%nat)) (IH (j + 1)%nat (i + 1)%nat)) as HS.
  pose proof (M q _ _ Hq HS) as HS2. pose proof (M Df _ _ HD HS2) as HS3. rewrite !(Rmult_comm Df) in HS3. split; [apply HS3|]. eapply Rle_trans; [apply HS3|]. apply Rmax_l.
Qed.

Lemma payoff_ok code (call : bool) Q1 Q2 K K2 : (1 <= code <= 9)%Z ->
  exists G, (forall x1 x2, s3_payoff code (zZ call) x1 x2 Q1 Q2 (Some K) (Some K2) = Ok (G x1 x2)) /\ forall x1 x2, 0 <= G x1 x2.
Proof.
  intro H. assert (X : forall y, 0 <= Rmax (rnd A 0) y) by (intro y; eapply Rle_trans; [|apply Rmax_l]; rewrite (rd_0 A HA); lra).
  assert (Y : forall y z, 0 <= y -> 0 <= Rmax y z) by (intros y z Hy; eapply Rle_trans; [exact Hy|apply Rmax_l]).
  assert (C : code = 1%Z \/ code = 2%Z \/ code = 3%Z \/ code = 4%Z \/ code = 5%Z \/ code = 6%Z \/ code = 7%Z \/ code = 8%Z \/ code = 9%Z) by lia.
  destruct C as [-> | [-> | [-> | [-> | [-> | [-> | [-> | [-> | ->]]]]]]]]; cbn [s3_payoff minus_strike strike_minus bind];
    match goal with |- exists G, (forall x1 x2, Ok (@?f x1 x2) = _) /\ _ => exists f; split; [reflexivity|] end; intros x1 x2; cbn [maxn ofZ NF2 FNum]; change (IZR 0) with 0; auto.
Qed.
End Fl2.

(*@ C68_two_asset | In floating-point arithmetic the American price of the two-asset tree is at least the European one, and neither is negative, for every payoff code. *)
Lemma c68_two_asset : forall A, monotone_fp A -> forall (call : bool) code S1 S2 t r b1 b2 s1 s2 rho K K2 Q1 Q2 n, (1 <= code <= 9)%Z -> n <> 0%nat ->
  exists e a, @all_types R (FNum A) call false code S1 S2 t r b1 b2 s1 s2 rho (Some K) (Some K2) Q1 Q2 "european" n = Ok (Price e) /\
    @all_types R (FNum A) call false code S1 S2 t r b1 b2 s1 s2 rho (Some K) (Some K2) Q1 Q2 "american" n = Ok (Price a) /\ 0 <= e <= a.
Proof.
  intros A HA call code S1 S2 t r b1 b2 s1 s2 rho K K2 Q1 Q2 n Hc Hn. destruct (payoff_ok A HA code call Q1 Q2 K K2 Hc) as (G & HG & Hpos).
  set (o := fun ty => @mk3D R (FNum A) S1 S2 t r b1 b2 s1 s2 rho (Some K) (Some K2) Q1 Q2 code ty n).
  assert (P : forall ty, @all_types R (FNum A) call false code S1 S2 t r b1 b2 s1 s2 rho (Some K) (Some K2) Q1 Q2 ty n =
    Ok (Price (@V3 R (FNum A) (o ty) n ty (fun m j i => G (@s3_node1 R (FNum A) (o ty) m j) (@s3_node2 R (FNum A) (o ty) m j i)) n 0 0))).
  { intro ty. destruct (@s3_matrix_ok R (FNum A) (o ty) (zZ call) n ty (fun m j i => G (@s3_node1 R (FNum A) (o ty) m j) (@s3_node2 R (FNum A) (o ty) m j i))) as (M & _ & E2 & _).
    { intros. unfold s3_node_payoff. apply HG. }
    unfold all_types, AllTypes. destruct (Nat.eqb_spec n 0); [lia|]. cbn [bind]. fold (o ty). unfold s3_value. unfold Val in E2. rewrite Nat.sub_0_r in E2.
    transitivity (@s3_calc_price R (FNum A) (o ty) (zZ call) n ty false); [destruct call; reflexivity|exact E2]. }
  do 2 eexists. split; [apply P|]. split; [apply P|].
  exact (V3_le A HA (o "european"%string) (o "american"%string) n (fun m j i => G (@s3_node1 R (FNum A) (o "european"%string) m j) (@s3_node2 R (FNum A) (o "european"%string) m j i)) eq_refl eq_refl (fun _ _ _ => Hpos _ _) n 0 0).
Qed.
