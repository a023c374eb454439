(** Arithmetic Asian options against vanilla ones, at the level of means (C62). *)
From Coq Require Import Reals String List Arith ZArith Lra Lia.
From Coquelicot Require Import Coquelicot.
From Verif Require Import Num Py Arr MBase MMonte SMonte SMonte2  PGauss SHeston SSpread2 PHeston PHeston2 PExpect PExpect2 PMonte PMonte5 PMonte6 PMargrabe PTwoAsset.
Import List ListNotations.
Open Scope R_scope.

Lemma prefix_expect k m : forall f v, is_expect k f v -> is_expect (k + m) (fun zs => f (firstn k zs)) v.
Proof.
  induction k as [|k IH]; intros f v.
  - cbn [is_expect Nat.add firstn]. intros <-. apply is_expect_const1.
  - intros (g & Hg & M). exists g. split; [|exact M]. intro z. cbn [firstn]. apply (IH (fun zs => f (z :: zs))), Hg.
Qed.
Lemma total_expect {A} n (f : A -> list R -> R) (v : A -> R) l : (forall k, In k l -> is_expect n (f k) (v k)) ->
  is_expect n (fun zs => total (map (fun k => f k zs) l)) (total (map v l)).
Proof.
  induction l as [|a l IH]; intro H.
  - cbn. apply is_expect_const1.
  - assert (P := is_expect_lin _ _ _ _ _ 1 1 (H a (or_introl eq_refl)) (IH (fun k Hk => H k (or_intror Hk)))). rewrite !Rmult_1_l in P. eapply is_expect_ext; [|exact P].
    intros zs _. cbv beta. rewrite !Rmult_1_l. reflexivity.
Qed.
Lemma average_expect' {A} n (f : A -> list R -> R) (v : A -> R) l : (forall k, In k l -> is_expect n (f k) (v k)) ->
  is_expect n (fun zs => average (map (fun k => f k zs) l)) (average (map v l)).
Proof.
  intro H. assert (P := total_expect n f v l H). assert (Q := is_expect_lin _ _ _ _ _ (/ INR (length l)) 0 P P). rewrite Rmult_0_l, Rplus_0_r in Q.
  unfold average. rewrite map_length. unfold Rdiv. rewrite Rmult_comm. eapply is_expect_ext; [|exact Q]. intros zs _. cbv beta. rewrite map_length. ring.
Qed.
Lemma gbm_cons A b s dt z zs : gbm A b s dt (z :: zs) = gbm (gbm A b s dt [z]) b s dt zs.
Proof.
  unfold gbm. change (length (z :: zs)) with (Datatypes.S (length zs)). rewrite S_INR. change (total (z :: zs)) with (z + total zs). change (total [z]) with (z + 0). change (INR (length [z])) with 1. rewrite (Rmult_assoc A), <- exp_plus. do 2 f_equal. ring.
Qed.
Lemma step_fwd A b s dt : 0 < dt -> is_mean (fun z => gbm A b s dt [z]) (A * exp (b * dt)).
Proof.
  intro Hd. destruct (steps_fwd 0 A dt b s Hd) as (g & Hg & M). eapply is_mean_ext; [|exact M]. intro z. rewrite <- (Hg z). cbn [INR]. now rewrite Rdiv_1.
Qed.
Lemma jensen_step (call : bool) A K t r b s dt w : 0 < A -> 0 < dt -> (if call then 0 <= b else b <= 0) ->
  is_mean (fun z => discounted call K t r (gbm A b s dt [z])) w -> discounted call K t r A <= w.
Proof.
  intros HA Hd Hb M. assert (He := exp_pos (- r * t)). unfold discounted.
  assert (F := step_fwd A b s dt Hd).
  assert (H0 : 0 <= w). { apply Rle_trans with (0 * 1 + 0 * 1); [lra|]. refine (is_mean_le _ _ _ _ _ (is_mean_lin _ _ _ _ 0 0 mean_1 mean_1) M). intro z. cbv beta. unfold discounted.
    apply Rle_trans with (exp (- r * t) * 0); [lra|]. apply Rmult_le_compat_l; [lra|apply Rmax_l]. }
  assert (H1 : exp (- r * t) * (if call then A * exp (b * dt) - K else K - A * exp (b * dt)) <= w).
  { set (sg := if call then 1 else -1). assert (L := is_mean_lin _ _ _ _ (exp (- r * t) * sg) (- (exp (- r * t) * sg * K)) F mean_1).
    replace (exp (- r * t) * (if call then A * exp (b * dt) - K else K - A * exp (b * dt))) with (exp (- r * t) * sg * (A * exp (b * dt)) + - (exp (- r * t) * sg * K) * 1) by (unfold sg; destruct call; ring).
    refine (is_mean_le _ _ _ _ _ L M). intro z. cbv beta. unfold discounted. set (u := gbm _ _ _ _ _).
    replace (exp (- r * t) * sg * u + - (exp (- r * t) * sg * K) * 1) with (exp (- r * t) * (if call then u - K else K - u)) by (unfold sg; destruct call; ring). apply Rmult_le_compat_l; [lra|apply Rmax_r]. }
  assert (H2 : (if call then A - K else K - A) <= (if call then A * exp (b * dt) - K else K - A * exp (b * dt))).
  { destruct call.
    - assert (1 <= exp (b * dt)) by (rewrite <- exp_0 at 1; apply exp_le; nra). nra.
    - assert (exp (b * dt) <= 1) by (rewrite <- exp_0; apply exp_le; nra). nra. }
  unfold Rmax. destruct (Rle_dec 0 (if call then A - K else K - A)); [|lra]. eapply Rle_trans; [apply Rmult_le_compat_l; [lra|exact H2]|exact H1].
Qed.
Lemma gbm_pos A b s dt zs : 0 < A -> 0 < gbm A b s dt zs.
Proof. intro. apply Rmult_lt_0_compat; [assumption|apply exp_pos]. Qed.
Lemma one_more (call : bool) K t r b s dt : 0 < dt -> (if call then 0 <= b else b <= 0) -> forall k A v w, 0 < A ->
  is_expect k (fun zs => discounted call K t r (gbm A b s dt zs)) v -> is_expect (Datatypes.S k) (fun zs => discounted call K t r (gbm A b s dt zs)) w -> v <= w.
Proof.
  intros Hd Hb. induction k as [|k IH]; intros A v w HA.
  - cbn [is_expect]. intros <- (g & Hg & M). replace (gbm A b s dt []) with A.
    + apply (jensen_step call A K t r b s dt w HA Hd Hb). eapply is_mean_ext; [|exact M]. intro z. now rewrite <- (Hg z).
    + unfold gbm. cbn. replace ((b - s * (s * 1) / 2) * (0 * dt) + s * sqrt dt * 0) with 0 by ring. rewrite exp_0. ring.
  - intros (g & Hg & M) (h & Hh & M'). refine (is_mean_le _ _ _ _ _ M M'). intro z. apply (IH (gbm A b s dt [z])).
    + now apply gbm_pos.
    + eapply is_expect_ext; [|apply Hg]. intros zs _. cbv beta. now rewrite gbm_cons.
    + eapply is_expect_ext; [|apply Hh]. intros zs _. cbv beta. now rewrite gbm_cons.
Qed.
(** the mean payoff at the k-th time point *)
Definition vk (call : bool) S K t r b s dt k := bvalue call S K (INR k * dt) (r * t / (INR k * dt)) b s.
Lemma vk_mean call S K t r b s dt k : 0 < S -> 0 < K -> 0 < dt -> 0 < s -> (1 <= k)%nat -> is_expect k (fun zs => discounted call K t r (gbm S b s dt zs)) (vk call S K t r b s dt k).
Proof.
  intros HS HK Hd Hs Hk. destruct k as [|n]; [lia|]. assert (HN : 0 < INR (Datatypes.S n)) by (apply lt_0_INR; lia). assert (Ht : 0 < INR (Datatypes.S n) * dt) by now apply Rmult_lt_0_compat.
  eapply is_expect_ext; [|apply (steps_value n call S K _ (r * t / (INR (Datatypes.S n) * dt)) b s HS HK Ht Hs)]. intros zs _. cbv beta.
  replace (INR (Datatypes.S n) * dt / INR (Datatypes.S n)) with dt by (field; lra). unfold discounted. f_equal. f_equal. field. lra.
Qed.
Lemma vk_mono (call : bool) S K t r b s dt : 0 < S -> 0 < K -> 0 < dt -> 0 < s -> (if call then 0 <= b else b <= 0) -> forall k m, (1 <= k)%nat -> vk call S K t r b s dt k <= vk call S K t r b s dt (k + m).
Proof.
  intros HS HK Hd Hs Hb k m Hk. induction m as [|m IH]; [rewrite Nat.add_0_r; lra|]. eapply Rle_trans; [exact IH|]. rewrite Nat.add_succ_r.
  apply (one_more call K t r b s dt Hd Hb (k + m) S); [exact HS| |]; apply vk_mean; auto; lia.
Qed.

Lemma avg_payoff (call : bool) K t r (f : nat -> R) l : l <> [] -> discounted call K t r (average (map f l)) <= average (map (fun k => discounted call K t r (f k)) l).
Proof.
  intro Hl. assert (He := exp_pos (- r * t)). unfold discounted. rewrite average_scal. apply Rmult_le_compat_l; [lra|]. apply Rmax_lub.
  - rewrite <- (average_const 0 l Hl) at 1. apply average_le. intros. apply Rmax_l.
  - replace (if call then average (map f l) - K else K - average (map f l)) with (average (map (fun k => if call then f k - K else K - f k) l)).
    + apply average_le. intros. apply Rmax_r.
    + destruct call; rewrite average_minus, average_const by exact Hl; reflexivity.
Qed.

(** the average of the forward prices over the time points *)
Lemma avg_forward n S t b s : 0 < t -> (1 <= n)%nat -> is_expect n (fun zs => gbm_average S b s (t / INR n) zs) (average (map (fun k => S * exp (b * (INR k * (t / INR n)))) (seq 1 n))).
Proof.
  intros Ht Hn. assert (HN : 0 < INR n) by (apply lt_0_INR; lia). assert (Hd : 0 < t / INR n) by now apply Rdiv_lt_0_compat.
  eapply is_expect_ext; [|apply (average_expect' n (fun k zs => gbm S b s (t / INR n) (firstn k zs)) (fun k => S * exp (b * (INR k * (t / INR n)))) (seq 1 n))].
  - intros zs Hz. cbv beta. unfold gbm_average. now rewrite Hz.
  - intros k Hk. apply in_seq in Hk. destruct k as [|k]; [lia|]. replace n with (Datatypes.S k + (n - Datatypes.S k))%nat at 1 by lia.
    apply (prefix_expect (Datatypes.S k) (n - Datatypes.S k) (fun zs => gbm S b s (t / INR n) zs)). assert (HK : 0 < INR (Datatypes.S k)) by (apply lt_0_INR; lia).
    assert (P := steps_fwd k S (INR (Datatypes.S k) * (t / INR n)) b s ltac:(now apply Rmult_lt_0_compat)).
    replace (INR (Datatypes.S k) * (t / INR n) / INR (Datatypes.S k)) with (t / INR n) in P by (field; lra). exact P.
Qed.

(*@ C62_asian_bounds | The mean price of the arithmetic Asian Monte Carlo option is at least the discounted payoff of the average forward price, and, for calls when b >= 0 and puts when b <= 0, at most the Black-Scholes value of the vanilla option with the same terms. *)
Lemma c62_bounds : forall (trace anti call : bool) (loops len paths : nat) (S K t r b s : R),
  0 < S -> 0 < K -> 0 < t -> 0 < s -> (1 <= loops)%nat -> (1 <= len)%nat -> (1 <= paths)%nat -> exists value a v,
    (forall M, shaped len M -> length M = (loops * paths)%nat -> exists o prices tr,
      MonteCarloOption loops len paths S K t r b (Some s) from_stream wiener_path asian_payoff trace anti false = Ok o /\
      mc_price call o M = Ok (MArray prices, tr, []) /\ length prices = loops /\ value M = average prices) /\
    is_matrix_expect (loops * paths) len value a /\ lognormal_value call S K t r b s v /\
    discounted call K t r (average (map (fun k => S * exp (b * (INR k * (t / INR len)))) (seq 1 len))) <= a /\
    ((if call then 0 <= b else b <= 0) -> a <= v).
Proof.
  intros * HS HK Ht Hs Hlo Hl Hp. assert (HN : 0 < INR len) by (apply lt_0_INR; lia). assert (Hd : 0 < t / INR len) by now apply Rdiv_lt_0_compat.
  destruct (mc_error trace anti true call loops len paths S K t r b s HS Ht Hs Hlo Hl Hp) as (value & a & V & w & H1 & H2 & _ & H3 & _). cbv zeta in H2. cbn [underlying] in H2.
  exists value, a, (bvalue call S K t r b s). split; [exact H1|]. split; [exact H3|]. split; [now apply bvalue_mean|]. assert (He := exp_pos (- r * t)). split.
  - set (F := average (map (fun k => S * exp (b * (INR k * (t / INR len)))) (seq 1 len))). assert (PF := avg_forward len S t b s Ht Hl). fold F in PF. unfold discounted. unfold Rmax at 1.
    assert (H0 : 0 <= a). { refine (is_expect_le len _ _ _ _ _ (is_expect_const1 len 0) H2). intros zs _. cbv beta. unfold discounted. apply Rmult_le_pos; [lra|apply Rmax_l]. }
    assert (HF : exp (- r * t) * (if call then F - K else K - F) <= a).
    { set (sg := if call then 1 else -1). assert (L := is_expect_lin _ _ _ _ _ (exp (- r * t) * sg) (- (exp (- r * t) * sg * K)) PF (is_expect_const1 len 1)).
      replace (exp (- r * t) * (if call then F - K else K - F)) with (exp (- r * t) * sg * F + - (exp (- r * t) * sg * K) * 1) by (unfold sg; destruct call; ring).
      refine (is_expect_le len _ _ _ _ _ L H2). intros zs _. cbv beta. unfold discounted. set (u := gbm_average _ _ _ _ _).
      replace (exp (- r * t) * sg * u + - (exp (- r * t) * sg * K) * 1) with (exp (- r * t) * (if call then u - K else K - u)) by (unfold sg; destruct call; ring). apply Rmult_le_compat_l; [lra|apply Rmax_r]. }
    destruct (Rle_dec 0 _); [exact HF|lra].
  - intro Hb. set (dt := t / INR len) in *.
    assert (PA : is_expect len (fun zs => average (map (fun k => discounted call K t r (gbm S b s dt (firstn k zs))) (seq 1 len))) (average (map (vk call S K t r b s dt) (seq 1 len)))).
    { apply (average_expect' len (fun k zs => discounted call K t r (gbm S b s dt (firstn k zs)))). intros k Hk. apply in_seq in Hk. replace len with (k + (len - k))%nat at 1 by lia.
      apply (prefix_expect k (len - k) (fun zs => discounted call K t r (gbm S b s dt zs))). apply vk_mean; auto; lia. }
    assert (Hne : seq 1 len <> []) by (destruct len; [lia|discriminate]).
    assert (EV : vk call S K t r b s dt len = bvalue call S K t r b s).
    { eapply is_expect_unique; [apply vk_mean; auto|]. destruct len as [|n]; [lia|]. now apply steps_value. }
    apply Rle_trans with (average (map (vk call S K t r b s dt) (seq 1 len))).
    + refine (is_expect_le len _ _ _ _ _ H2 PA). intros zs Hz. cbv beta. unfold gbm_average. rewrite Hz. now apply avg_payoff.
    + rewrite <- EV, <- (average_const (vk call S K t r b s dt len) (seq 1 len) Hne) at 1. apply average_le. intros k Hk. apply in_seq in Hk. replace len with (k + (len - k))%nat by lia. apply vk_mono; auto; lia.
Qed.
