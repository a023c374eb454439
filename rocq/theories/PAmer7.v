(** Bounds of the American value and the cases without early exercise (C63). *)
From Coq Require Import Reals String List Arith Lra Lia Psatz.
From Coquelicot Require Import Coquelicot.
From Verif Require Import Num Py MBase MVanilla MTrees STrees SHeston SMonte SSpread2 SAmer PGauss PHeston PTrees2 PStop PTrees3 PTrees4 PConv PConv3 PConv4 PExpect PExpect2 PClt PTwoAsset PAmer1 PAmer3 PAmer6.
Import ListNotations.
Open Scope R_scope.

(*@ C63_bounds | The American value is at least what immediate exercise pays and at least the European value. *)
Lemma c63_bounds : forall S K t r b sigma (call : bool) v, 0 < S -> american_value (call_put call K) r b sigma t S v ->
  call_put call K S <= v /\ forall e, lognormal_value call S K t r b sigma e -> e <= v.
Proof.
  intros S K t r b sigma call v HS (B & HB & _). destruct (HB 1%nat ltac:(lia)) as [H1 H2]. cbn [bermudan] in H1. destruct H1 as (f & c & Hf & Hc & E). rewrite E in H2. clear E.
  replace (t / INR 1) with t in Hc by (cbn; field). split; [eapply Rle_trans; [apply Rmax_l|exact H2]|].
  intros e He. eapply Rle_trans; [|exact H2]. eapply Rle_trans; [|apply Rmax_r]. apply Req_le. rewrite <- (Tm_val _ _ He). apply Tm_val. eapply is_mean_ext; [|exact Hc]. intro z. cbv beta. unfold discounted.
  rewrite Hf by (unfold lognormal1; apply Rmult_lt_0_compat; [exact HS|apply exp_pos]). unfold call_put. destruct call; now rewrite (Rmax_comm 0).
Qed.

Lemma crr_weights b s t : 0 < s -> 0 < t -> exists N, forall n, (N <= n)%nat -> (0 < n)%nat /\ weights_ok (Bi CRR) b s (t / INR n).
Proof.
  intros Hs Ht. destruct (seqs t b s Ht Hs CRR) as (a & m & th & Th & N & _ & _ & _ & _ & _ & E). exists N. intros n Hn. destruct (E n Hn) as (H0 & _ & _ & P). split; [exact H0|].
  pose proof (tp_range (th n) (a n)). intros x [<-|[<-|[]]]; cbn [fst]; rewrite P; lra.
Qed.

Lemma no_early c S K t r b sigma (call : bool) : 0 < S -> 0 < K -> 0 < t -> 0 < sigma -> (if call then 0 <= r /\ r <= b else r <= 0 /\ b <= r) ->
  exists v price, (if call then gbs_call_F Phi else gbs_put_F Phi) (GBSOption S K t r b (Some sigma)) = Ok v /\
    american_value (call_put call K) r b sigma t S v /\
    (forall n, n <> 0%nat -> tree_price c (mkTree S K t r b sigma "american" n) call false = Ok (Price (price n))) /\
    is_lim_seq price v.
Proof.
  intros HS HK Ht Hs HR. destruct (c63_limit c S K t r b sigma call HS HK Ht Hs) as (v & price & A & HP & L).
  destruct (c63_limit (Bi CRR) S K t r b sigma call HS HK Ht Hs) as (v' & price' & A' & HP' & L').
  destruct (tree_converges (Bi CRR) S K t r b sigma call HS HK Ht Hs) as (w & pe & Hw & HPe & Le).
  assert (E : v' = w).
  { assert (X : Lim_seq price' = Lim_seq pe).
    { destruct (crr_weights b sigma t Hs Ht) as (N & HN). apply Lim_seq_ext_loc. exists N. intros n Hn. destruct (HN n Hn) as [H0 W].
      assert (H0' : n <> 0%nat) by lia. specialize (HP' n H0'). specialize (HPe n H0').
      destruct call; [destruct (no_early_exercise_call (Bi CRR) S K t r b sigma n) as (y & Y1 & Y2)|destruct (no_early_exercise_put (Bi CRR) S K t r b sigma n) as (y & Y1 & Y2)]; try (lra || assumption || discriminate).
      - rewrite Y1 in HP'. rewrite Y2 in HPe. congruence.
      - rewrite Y1 in HP'. rewrite Y2 in HPe. congruence. }
    rewrite (is_lim_seq_unique _ _ L'), (is_lim_seq_unique _ _ Le) in X. now injection X. }
  assert (E2 : v = v') by exact (american_unique _ _ _ _ _ _ _ _ HS A A'). subst. exists w, price. auto.
Qed.

(*@ C63_no_early_exercise_call | When carry covers interest (b >= r >= 0) American calls of all four classes converge to the European Black-Scholes price, which is the American value; JR included, although its prices with finitely many steps may show early exercise (C27). *)
Lemma c63_no_early_call : forall c S K t r b sigma, 0 < S -> 0 < K -> 0 < t -> 0 < sigma -> 0 <= r -> r <= b ->
  exists v price, gbs_call_F Phi (GBSOption S K t r b (Some sigma)) = Ok v /\
    american_value (call_put true K) r b sigma t S v /\
    (forall n, n <> 0%nat -> tree_price c (mkTree S K t r b sigma "american" n) true false = Ok (Price (price n))) /\
    is_lim_seq price v.
Proof. intros c S K t r b sigma HS HK Ht Hs H1 H2. exact (no_early c S K t r b sigma true HS HK Ht Hs (conj H1 H2)). Qed.

(*@ C63_no_early_exercise_put | When r <= 0 and b <= r American puts of all four classes converge to the European Black-Scholes price. *)
Lemma c63_no_early_put : forall c S K t r b sigma, 0 < S -> 0 < K -> 0 < t -> 0 < sigma -> r <= 0 -> b <= r ->
  exists v price, gbs_put_F Phi (GBSOption S K t r b (Some sigma)) = Ok v /\
    american_value (call_put false K) r b sigma t S v /\
    (forall n, n <> 0%nat -> tree_price c (mkTree S K t r b sigma "american" n) false false = Ok (Price (price n))) /\
    is_lim_seq price v.
Proof. intros c S K t r b sigma HS HK Ht Hs H1 H2. exact (no_early c S K t r b sigma false HS HK Ht Hs (conj H1 H2)). Qed.
