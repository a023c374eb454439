(** American tree prices converge (C63). *)
From Coq Require Import Reals String List Arith Lra Lia Psatz.
From Coquelicot Require Import Coquelicot.
From Verif Require Import Num Py MBase MVanilla MTrees STrees SHeston SSpread2 SAmer PCnd PGauss PHeston PHeston2 PTrees2 PStop PTrees3 PSpread3 PLattice PTrees4 PConv PConv3 PConv4 PExpect PExpect2 PClt PAmer1 PAmer2 PAmer3 PAmer4 PAmer5.
Import ListNotations.
Open Scope R_scope.

(** ** the specification determines the value *)
Lemma bermudan_unique g r b s dt k : forall S v w, 0 < S -> bermudan g r b s dt k S v -> bermudan g r b s dt k S w -> v = w.
Proof.
  induction k as [|k IH]; intros S v w HS; cbn [bermudan]; [intros -> ->; reflexivity|]. intros (f & c & Hf & Hc & ->) (f' & c' & Hf' & Hc' & ->). f_equal.
  rewrite <- (Tm_val _ _ Hc). apply Tm_val. eapply is_mean_ext; [|exact Hc']. intro z. cbv beta. f_equal. symmetry. assert (P : 0 < lognormal1 S b s dt z) by (unfold lognormal1; apply Rmult_lt_0_compat; [exact HS|apply exp_pos]).
  exact (IH _ _ _ P (Hf _ P) (Hf' _ P)).
Qed.
Lemma american_unique g r b s t S v w : 0 < S -> american_value g r b s t S v -> american_value g r b s t S w -> v = w.
Proof.
  intros HS (B & HB & LB) (B' & HB' & LB'). apply is_lim_seq_unique in LB. apply is_lim_seq_unique in LB'.
  assert (E : Lim_seq B = Lim_seq B').
  { apply Lim_seq_ext_loc. exists 1%nat. intros n Hn. destruct (HB n Hn) as [H1 _]. destruct (HB' n Hn) as [H2 _]. exact (bermudan_unique _ _ _ _ _ _ _ _ _ HS H1 H2). }
  rewrite LB, LB' in E. now injection E.
Qed.

(** ** payoffs of the logarithm of the price *)
Lemma pay_lip S K call : 0 < S -> 0 < K -> lip (S + K) 1 (fun w => call_put call K (S * exp w)).
Proof.
  intros HS HK. assert (W : forall w, exp w <= exp (1 * Rabs w) /\ 1 <= exp (1 * Rabs w)).
  { intro w. rewrite Rmult_1_l. split; [apply exp_le, Rle_abs|rewrite <- exp_0; apply exp_le, Rabs_pos]. }
  split.
  - intro w. destruct (W w) as [W1 W2]. pose proof (exp_pos w). assert (H1 : 0 <= call_put call K (S * exp w) <= S * exp w + K).
    { pose proof (Rmult_lt_0_compat _ _ HS (exp_pos w)). unfold call_put. destruct call; unfold Rmax; destruct (Rle_dec _ _); lra. }
    rewrite Rabs_pos_eq by lra. nra.
  - intros w w'. destruct (W w) as [W1 W2]. destruct (W w') as [W1' W2']. pose proof (exp_pos w). pose proof (exp_pos w').
    assert (H1 : Rabs (call_put call K (S * exp w) - call_put call K (S * exp w')) <= Rabs (S * exp w - S * exp w')).
    { unfold call_put. destruct call; unfold Rmax, Rabs; repeat match goal with |- context [Rle_dec ?a ?b] => destruct (Rle_dec a b) | |- context [Rcase_abs ?a] => destruct (Rcase_abs a) end; lra. }
    eapply Rle_trans; [exact H1|]. rewrite <- Rmult_minus_distr_l, Rabs_mult, (Rabs_pos_eq S) by lra. pose proof (exp_lip w w') as L. pose proof (Rabs_pos (w - w')).
    apply Rle_trans with (S * (Rabs (w - w') * (exp w + exp w'))); [apply Rmult_le_compat_l; lra|]. rewrite Rmult_assoc. apply Rmult_le_compat; [lra|nra|lra|]. apply Rmult_le_compat_l; lra.
Qed.

(** ** values with few exercise dates *)
Lemma BV_bermudan S r b s t g c0 : 0 < S -> 0 <= s -> 0 < t -> 0 <= c0 -> lip c0 1 (fun w => g (S * exp w)) -> forall m k, (0 < m)%nat -> forall w,
  bermudan g r b s (t / INR m) k (S * exp w) (BV (Gt r (b - s ^ 2 / 2) s (t / INR m)) (fun w => g (S * exp w)) k w).
Proof.
  intros HS Hs Ht Hc0 Hg m k Hm. set (u := t / INR m). assert (HI : 0 < INR m) by now apply lt_0_INR. assert (Hu : 0 < u) by now apply Rdiv_lt_0_compat.
  set (nu := b - s ^ 2 / 2). set (G := fun w => g (S * exp w)).
  destruct (Gt_cls 1 r nu s u ltac:(lra) Hs) as (CG & HCG & Hcls). 
  assert (LB : forall k, exists c, 0 <= c /\ lip c 1 (BV (Gt r nu s u) G k)).
  { intro j. induction j as [|j (c & Hc & IH)]; [now exists c0|]. exists (c0 + CG * c). assert (0 <= CG * c) by nra. split; [lra|]. apply lip_max; [exact Hg|]. apply Hcls; [lra|exact Hc|exact IH]. }
  induction k as [|k IH]; intro w; [reflexivity|]. cbn [bermudan].
  exists (fun x => BV (Gt r nu s u) G k (ln (x / S))), (Gt r nu s u (BV (Gt r nu s u) G k) w). split; [|split].
  - intros x Hx. specialize (IH (ln (x / S))). rewrite exp_ln in IH by now apply Rdiv_lt_0_compat. replace (S * (x / S)) with x in IH by (field; lra). exact IH.
  - destruct (LB k) as (c & Hc & Hl). unfold Gt at 2. assert (P := mean_scal _ _ (exp (- r * u)) (Gs_mean c 1 _ (s * sqrt u) (w + nu * u) Hc Rle_0_1 ltac:(pose proof (sqrt_pos u); nra) Hl)).
    eapply is_mean_ext; [|exact P]. intro z. cbv beta. do 2 f_equal. unfold lognormal1. replace (S * exp w * exp ((b - s ^ 2 / 2) * u + s * (sqrt u * z)) / S) with (exp (w + nu * u + s * sqrt u * z)).
    + now rewrite ln_exp.
    + fold nu. replace (w + nu * u + s * sqrt u * z) with (w + (nu * u + s * (sqrt u * z))) by ring. rewrite (exp_plus w). field. lra.
  - reflexivity.
Qed.

(** ** the tree recursion *)
Lemma WG_nonneg mv Df z K m x : 0 <= Df -> (forall a, In a mv -> 0 <= fst a) -> 0 <= WG mv Df z K m x.
Proof.
  intros HD Hw. revert x. induction m as [|m IH]; intro x; cbn [WG]; [apply Rmax_r|]. eapply Rle_trans; [|apply Rmax_r]. apply Rmult_le_pos; [exact HD|].
  clear -IH Hw. induction mv as [|a l IHl]; cbn; [lra|]. assert (0 <= fst a) by (apply Hw; now left). assert (0 <= sumR (map (fun a0 => fst a0 * WG (a :: l) Df z K m (x * snd a0)) l)).
  { assert (G : forall l', (forall a0, In a0 l' -> 0 <= fst a0) -> 0 <= sumR (map (fun a0 => fst a0 * WG (a :: l) Df z K m (x * snd a0)) l')).
    { intros l' H'. induction l' as [|a' l' IH']; cbn; [lra|]. assert (0 <= fst a') by (apply H'; now left). pose proof (IH (x * snd a')). assert (0 <= sumR (map (fun a0 => fst a0 * WG (a :: l) Df z K m (x * snd a0)) l')) by (apply IH'; intros; apply H'; now right). unfold sumR in *. nra. }
    apply G. intros; apply Hw; now right. }
  pose proof (IH (x * snd a)). unfold sumR in *. nra.
Qed.
Lemma zof_pay call K x : Rmax (zof call * (x - K)) 0 = call_put call K x.
Proof. unfold call_put, zof. destruct call; f_equal; ring. Qed.
Lemma WG_AV mv Df call K S (T : (R -> R) -> R -> R) : 0 <= Df -> (forall a, In a mv -> 0 <= fst a) -> mono T ->
  (forall F w, Df * sumR (map (fun a => fst a * F (S * exp w * snd a)) mv) = T (fun w => F (S * exp w)) w) ->
  forall m w, WG mv Df (zof call) K m (S * exp w) = AV T (fun w => call_put call K (S * exp w)) m w.
Proof.
  intros HD Hw HM HT. induction m as [|m IH]; intro w; cbn [WG AV]; [apply zof_pay|]. rewrite <- zof_pay. rewrite HT. rewrite (T_ext T _ _ HM IH).
  assert (N : 0 <= T (AV T (fun w0 => call_put call K (S * exp w0)) m) w).
  { rewrite <- (T_ext T _ _ HM IH), <- HT. apply Rmult_le_pos; [exact HD|]. clear -HD Hw. assert (G : forall l', (forall a, In a l' -> 0 <= fst a) -> 0 <= sumR (map (fun a => fst a * WG mv Df (zof call) K m (S * exp w * snd a)) l')).
    { intros l' H'. induction l' as [|a' l' IH']; cbn; [lra|]. assert (0 <= fst a') by (apply H'; now left). pose proof (WG_nonneg mv Df (zof call) K m (S * exp w * snd a') HD Hw). assert (0 <= sumR (map (fun a => fst a * WG mv Df (zof call) K m (S * exp w * snd a)) l')) by (apply IH'; intros; apply H'; now right). unfold sumR in *. nra. }
    now apply G. }
  generalize dependent (T (AV T (fun w0 => call_put call K (S * exp w0)) m) w). intros X N. generalize (zof call * (S * exp w - K)). intro Y. unfold Rmax. destruct (Rle_dec Y 0); repeat match goal with |- context [Rle_dec ?a ?b] => destruct (Rle_dec a b) end; lra.
Qed.

Section Tree.
Variables (S K t r b s : R) (call : bool).
Hypotheses (HS : 0 < S) (HK : 0 < K) (Ht : 0 < t) (Hs : 0 < s).
Notation pay := (fun w => call_put call K (S * exp w)).

Lemma q2 n : (0 < n)%nat -> sqrt (t / INR n) ^ 2 = t / INR n.
Proof. intro Hn. apply pow2_sqrt. apply Rlt_le, Rdiv_lt_0_compat; [exact Ht|now apply lt_0_INR]. Qed.

Lemma seqs k : exists (a m th : nat -> R) Th N0, 0 <= Th /\ (forall n, 0 <= a n) /\ (forall n, Rabs (th n) <= Th) /\
  is_lim_seq (fun n => sqrt (INR n) * a n) (s * sqrt t) /\ is_lim_seq (fun n => INR n * (m n + th n * a n ^ 2)) ((b - s ^ 2 / 2) * t) /\
  forall n, (N0 <= n)%nat -> (0 < n)%nat /\ step_u k b s (t / INR n) = exp (m n + a n) /\ step_d k b s (t / INR n) = exp (m n - a n) /\ step_p k b s (t / INR n) = tp (th n) (a n).
Proof.
  destruct (tilt_facts k b s Hs) as (Th & HTh & F). destruct (q_seq t Ht _ F) as (N & HN).
  assert (F' : forall n, (Datatypes.S N <= n)%nat -> 0 < aa k b s (t / INR n) /\ tp (tt k b s (t / INR n)) (aa k b s (t / INR n)) = step_p k b s (t / INR n) /\ Rabs (tt k b s (t / INR n)) <= Th).
  { intros n Hn. pose proof (HN n ltac:(lia)) as X. cbv beta in X. rewrite q2 in X by lia. tauto. }
  set (tr := fun f : R -> R => fun n : nat => if (Datatypes.S N <=? n)%nat then f (t / INR n) else 0).
  assert (TR : forall f n, (Datatypes.S N <= n)%nat -> tr f n = f (t / INR n)) by (intros f n Hn; unfold tr; apply Nat.leb_le in Hn; now rewrite Hn).
  exists (tr (aa k b s)), (tr (mm k b s)), (tr (tt k b s)), Th, (Datatypes.S N). split; [exact HTh|]. split; [|split; [|split; [|split]]].
  - intro n. unfold tr. destruct (Nat.leb_spec (Datatypes.S N) n) as [H|H]; [|lra]. apply Rlt_le, F'. exact H.
  - intro n. unfold tr. destruct (Nat.leb_spec (Datatypes.S N) n) as [H|H]; [|rewrite Rabs_R0; exact HTh]. now apply F'.
  - apply (is_lim_seq_ext_loc (fun n => aa k b s (t / INR n) / sqrt (t / INR n) * sqrt t)).
    + exists (Datatypes.S N). intros n Hn. rewrite TR by exact Hn. assert (HI : 0 < INR n) by (apply lt_0_INR; lia). rewrite sqrt_div by lra. pose proof (sqrt_lt_R0 _ Ht). pose proof (sqrt_lt_R0 _ HI). field. split; lra.
    + apply (is_lim_seq_mult' _ (fun _ => sqrt t)); [|apply is_lim_seq_const].
      apply (is_lim_seq_ext_loc (fun n => aa k b s (sqrt (t / INR n) ^ 2) / sqrt (t / INR n))).
      * exists 1%nat. intros n Hn. rewrite q2 by lia. reflexivity.
      * apply (filterlim_comp _ _ _ (fun n => sqrt (t / INR n)) (fun q => aa k b s (q ^ 2) / q) _ (at_right 0) _ (q_seq t Ht) (aa_lim k b s Hs)).
  - apply (is_lim_seq_ext_loc (fun n => (mm k b s (t / INR n) + tt k b s (t / INR n) * aa k b s (t / INR n) ^ 2) / (t / INR n) * t)).
    + exists (Datatypes.S N). intros n Hn. rewrite !TR by exact Hn. assert (HI : 0 < INR n) by (apply lt_0_INR; lia). field. split; lra.
    + apply (is_lim_seq_mult' _ (fun _ => t)); [|apply is_lim_seq_const]. apply (along_f t Ht (fun h => (mm k b s h + tt k b s h * aa k b s h ^ 2) / h)). apply (drift_lim k b s Hs).
  - intros n Hn. rewrite !TR by exact Hn. destruct (F' n Hn) as (_ & E & _). destruct (u_eq k b s Hs (sqrt (t / INR n))) as [U D].
    { apply sqrt_lt_R0, Rdiv_lt_0_compat; [exact Ht|apply lt_0_INR; lia]. }
    rewrite q2 in U, D by lia. split; [lia|]. rewrite E. now split.
Qed.

Lemma american_of (price : nat -> R) v :
  (forall eps, 0 < eps -> exists N, forall n, (N <= n)%nat -> Rabs (price n - v) < eps) ->
  (forall k, (0 < k)%nat -> BV (Gt r (b - s ^ 2 / 2) s (t / INR k)) pay k 0 <= v) ->
  (forall eps, 0 < eps -> exists m0, forall k, (m0 <= k)%nat -> v - eps <= BV (Gt r (b - s ^ 2 / 2) s (t / INR k)) pay k 0) ->
  american_value (call_put call K) r b s t S v /\ is_lim_seq price v.
Proof.
  intros H1 H2 H3. split.
  - exists (fun m => BV (Gt r (b - s ^ 2 / 2) s (t / INR m)) pay m 0). split.
    + intros m Hm. split; [|now apply H2]. assert (X := BV_bermudan S r b s t (call_put call K) (S + K) HS ltac:(lra) Ht ltac:(lra) (pay_lip S K call HS HK) m m Hm 0). rewrite exp_0, Rmult_1_r in X. exact X.
    + apply is_lim_seq_spec. intros [eps He]. destruct (H3 (eps / 2) ltac:(lra)) as (m0 & Hm0). exists (Datatypes.S m0). intros n Hn. specialize (Hm0 n ltac:(lia)). specialize (H2 n ltac:(lia)). cbn [pos]. apply Rabs_def1; lra.
  - apply is_lim_seq_spec. intros [eps He]. destruct (H1 eps He) as (N & HN). exists N. exact HN.
Qed.

Lemma bi_step k a m th n F w : step_u k b s (t / INR n) = exp (m + a) -> step_d k b s (t / INR n) = exp (m - a) -> step_p k b s (t / INR n) = tp th a ->
  exp (- r * (t / INR n)) * sumR (map (fun x => fst x * F (S * exp w * snd x)) (moves (Bi k) b s (t / INR n))) = bstep (exp (- r * (t / INR n))) (tp th a) m a (fun w => F (S * exp w)) w.
Proof.
  intros U D P. unfold moves, bstep. rewrite U, D, P. unfold sumR. cbn. rewrite !Rmult_assoc, <- !exp_plus. f_equal. replace (w + (m + a)) with (w + m + a) by ring. replace (w + (m - a)) with (w + m - a) by ring. ring.
Qed.

Lemma bi_american k : exists v price, american_value (call_put call K) r b s t S v /\
  (forall n, n <> 0%nat -> tree_price (Bi k) (mkTree S K t r b s "american" n) call false = Ok (Price (price n))) /\ is_lim_seq price v.
Proof.
  destruct (seqs k) as (a & m & th & Th & N0 & HTh & Ha0 & Hth & La & Lm & E).
  destruct (binomial_american 1 r (b - s ^ 2 / 2) s t Th a m th ltac:(lra) Ht ltac:(lra) Ha0 HTh La Lm Hth pay (S + K) ltac:(lra) (pay_lip S K call HS HK) 0) as (v & H1 & H2 & H3).
  set (price := fun n : nat => WM true (moves (Bi k) b s (t / INR n)) (exp (- r * (t / INR n))) (zof call) K n S).
  assert (HP : forall eps, 0 < eps -> exists N, forall n, (N <= n)%nat -> Rabs (price n - v) < eps).
  { intros eps He. destruct (H1 eps He) as (N & HN). exists (N + N0)%nat. intros n Hn. destruct (E n ltac:(lia)) as (Hn0 & U & D & P). specialize (HN n ltac:(lia)).
    unfold price, WM. replace S with (S * exp 0) at 1 by (rewrite exp_0; ring). pose proof (tp_range (th n) (a n)) as R1.
    rewrite (WG_AV _ _ _ _ _ (Tn r t a m th n)); [exact HN|apply Rlt_le, exp_pos| | |].
    - intros x [<-|[<-|[]]]; cbn [fst]; rewrite P; lra.
    - apply bstep_mono; [apply Rlt_le, exp_pos|lra].
    - intros F w. unfold Tn. now apply bi_step. }
  destruct (american_of price v HP H2 H3) as [A L]. exists v, price. split; [exact A|]. split; [|exact L].
  intros n Hn. change "american"%string with (the_type true). rewrite price_WM by (auto; lra). reflexivity.
Qed.

Lemma tri_american : exists v price, american_value (call_put call K) r b s t S v /\
  (forall n, n <> 0%nat -> tree_price Tri (mkTree S K t r b s "american" n) call false = Ok (Price (price n))) /\ is_lim_seq price v.
Proof.
  destruct (seqs CRR) as (a & m & th & Th & N0 & HTh & Ha0 & Hth & La & Lm & E).
  destruct (binomial_american_two 1 r (b - s ^ 2 / 2) s t Th a m th ltac:(lra) Ht ltac:(lra) Ha0 HTh La Lm Hth pay (S + K) ltac:(lra) (pay_lip S K call HS HK) 0) as (v & H1 & H2 & H3).
  set (price := fun n : nat => WM true (moves Tri b s (t / INR n)) (exp (- r * (t / INR n))) (zof call) K n S).
  assert (HP : forall eps, 0 < eps -> exists N, forall n, (N <= n)%nat -> Rabs (price n - v) < eps).
  { intros eps He. destruct (H1 eps He) as (N & HN). exists (Datatypes.S (N + N0))%nat. intros n Hn. destruct (E (2 * n)%nat ltac:(lia)) as (Hn0 & U & D & P). specialize (HN n ltac:(lia)).
    assert (HI : 0 < INR n) by (apply lt_0_INR; lia). assert (E2 : t / INR (2 * n) = t / INR n / 2) by (rewrite mult_INR; cbn [INR]; field; lra). rewrite E2 in U, D, P.
    unfold price, WM. replace S with (S * exp 0) at 1 by (rewrite exp_0; ring). pose proof (tp_range (th (2 * n)%nat) (a (2 * n)%nat)) as R1.
    assert (MT : mono (Tn r t a m th (2 * n))) by (apply bstep_mono; [apply Rlt_le, exp_pos|lra]).
    rewrite (WG_AV _ _ _ _ _ (it 2 (Tn r t a m th (2 * n)))); [exact HN|apply Rlt_le, exp_pos| | |].
    - unfold moves. rewrite P. intros x [<-|[<-|[<-|[]]]]; cbn [fst]; nra.
    - intros f h Hfh x. now apply it_mono.
    - intros F w. cbn [it]. unfold Tn, bstep. rewrite E2. unfold moves. rewrite P. unfold sumR. cbn.
      set (p := tp (th (2 * n)%nat) (a (2 * n)%nat)). replace (exp (- r * (t / INR n))) with (exp (- r * (t / INR n / 2)) * exp (- r * (t / INR n / 2))) by (rewrite <- exp_plus; f_equal; field; lra).
      cbn [step_u step_d] in U, D. set (h := s * sqrt (t / INR n / 2)) in *. apply exp_inv in U, D. set (mn := m (2 * n)%nat) in *. set (an := a (2 * n)%nat) in *.
      change (n + (n + 0))%nat with (2 * n)%nat. fold mn an p.
      rewrite !Rmult_assoc, Rmult_1_r, <- !exp_plus. replace (w + mn + an + mn + an) with (w + (h + h)) by lra. replace (w + mn + an + mn - an) with w by lra. replace (w + mn - an + mn + an) with w by lra. replace (w + mn - an + mn - an) with (w + - (h + h)) by lra.
      replace (w + 2 * h) with (w + (h + h)) by ring. replace (w + - (2 * h)) with (w + - (h + h)) by ring. ring. }
  destruct (american_of price v HP H2 H3) as [A L]. exists v, price. split; [exact A|]. split; [|exact L].
  intros n Hn. change "american"%string with (the_type true). rewrite price_WM by (auto; lra). reflexivity.
Qed.
End Tree.

(*@ C63_american_limit | For all four classes the American tree price converges, as the number of steps grows, to the American value of the call or put on a lognormal asset: the limit, from below, of the values with finitely many equally spaced exercise dates. *)
Lemma c63_limit : forall c S K t r b sigma (call : bool), 0 < S -> 0 < K -> 0 < t -> 0 < sigma ->
  exists v price, american_value (call_put call K) r b sigma t S v /\
    (forall n, n <> 0%nat -> tree_price c (mkTree S K t r b sigma "american" n) call false = Ok (Price (price n))) /\
    is_lim_seq price v.
Proof. intros c S K t r b sigma call HS HK Ht Hs. destruct c as [k|]; [now apply bi_american|now apply tri_american]. Qed.

(*@ C63_unique | The American value is determined by the inputs, so all four classes have the same limit. *)
Lemma c63_unique : forall g r b sigma t S v w, 0 < S -> american_value g r b sigma t S v -> american_value g r b sigma t S w -> v = w.
Proof. exact american_unique. Qed.
