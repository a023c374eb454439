(** The closed-form Greeks are derivatives of the price (exact normal distribution). *)
From Coq Require Import Reals QArith Qreals ZArith Bool List Lra Lia Psatz.
From Coquelicot Require Import Coquelicot.
From Verif Require Import Num Py MBase MVanilla PCnd PCnd2 PBlack PGauss PGbs PGbs2.
Import ListNotations.
Open Scope R_scope.

Definition price_F (F : R -> R) (call : bool) (o : gbs R) : res R :=
  if call then gbs_call_F F o else gbs_put_F F o.

Definition bprice (F : R -> R) (call : bool) (A B v : R) : R :=
  if call then bcall F A B v else bput F A B v.

Lemma price_link F call S K t r b s : 0 < S -> 0 < K -> 0 < t -> s <> 0 ->
  price_F F call (GBSOption S K t r b (Some s)) =
  Ok (bprice F call (S * exp ((b - r) * t)) (K * exp (- r * t)) (s * sqrt t)).
Proof. intros. destruct call; [now apply call_link | now apply put_link]. Qed.

Definition bprice' (F : R -> R) (call : bool) (A B v A' B' v' : R) : R :=
  if call then A' * F (bd1 A B v) - B' * F (bd2 A B v) + A * npdf (bd1 A B v) * v'
  else B' * F (- bd2 A B v) - A' * F (- bd1 A B v) + A * npdf (bd1 A B v) * v'.

Lemma bprice_derive F call (A B v : R -> R) (A' B' v' p : R) :
  (forall x, is_derive F x (npdf x)) ->
  is_derive A p A' -> is_derive B p B' -> is_derive v p v' ->
  0 < A p -> 0 < B p -> 0 < v p ->
  (exists e : posreal, forall q, Rabs (q - p) < e -> 0 < A q /\ 0 < B q) ->
  is_derive (fun p => bprice F call (A p) (B p) (v p)) p (bprice' F call (A p) (B p) (v p) A' B' v').
Proof.
  intros. destruct call; unfold bprice, bprice'.
  - now apply bcall_derive.
  - now apply bput_derive.
Qed.

(** a derivative-producing form, with the domain's neighbourhood *)
Lemma price_derive (F : R -> R) call (fS fK ft fr fb fs : R -> R) p A' B' v' (e : posreal) :
  (forall x, is_derive F x (npdf x)) ->
  (forall q, Rabs (q - p) < e -> 0 < fS q /\ 0 < fK q /\ 0 < ft q /\ 0 < fs q) ->
  is_derive (fun q => fS q * exp ((fb q - fr q) * ft q)) p A' ->
  is_derive (fun q => fK q * exp (- fr q * ft q)) p B' ->
  is_derive (fun q => fs q * sqrt (ft q)) p v' ->
  let f := fun q => bprice F call (fS q * exp ((fb q - fr q) * ft q)) (fK q * exp (- fr q * ft q)) (fs q * sqrt (ft q)) in
  (forall q, Rabs (q - p) < e -> price_F F call (GBSOption (fS q) (fK q) (ft q) (fr q) (fb q) (Some (fs q))) = Ok (f q)) /\
  is_derive f p (bprice' F call (fS p * exp ((fb p - fr p) * ft p)) (fK p * exp (- fr p * ft p)) (fs p * sqrt (ft p)) A' B' v').
Proof.
  intros HF Hpos DA DB Dv f. split.
  - intros q Hq. destruct (Hpos q Hq) as (?&?&?&?). apply price_link; lra.
  - assert (P : Rabs (p - p) < e) by (rewrite Rminus_eq_0, Rabs_R0; apply cond_pos).
    destruct (Hpos p P) as (?&?&?&?).
    apply (bprice_derive F call (fun q => fS q * exp ((fb q - fr q) * ft q))
      (fun q => fK q * exp (- fr q * ft q)) (fun q => fs q * sqrt (ft q)) A' B' v' p); auto.
    + now apply fwd_pos. + now apply strk_pos. + now apply v_pos.
    + exists e. intros q Hq. destruct (Hpos q Hq) as (?&?&?&?). split; [now apply fwd_pos | now apply strk_pos].
Qed.

Lemma near_pos p : 0 < p -> forall q, Rabs (q - p) < p -> 0 < q.
Proof. intros Hp q Hq. apply Rabs_def2 in Hq. lra. Qed.

Definition is_price_greek (F : R -> R) (call : bool) (fS fK ft fr fb fs : R -> R) (p d : R) : Prop :=
  exists (f : R -> R) (e : posreal),
    (forall q, Rabs (q - p) < e ->
       price_F F call (GBSOption (fS q) (fK q) (ft q) (fr q) (fb q) (Some (fs q))) = Ok (f q)) /\
    is_derive f p d.

Section G.
Variable F : R -> R.
Hypothesis HF : forall x, is_derive F x (npdf x).
Hypothesis HFs : forall x, F x + F (- x) = 1.
Variables S K t r b s : R.
Hypothesis HS : 0 < S.
Hypothesis HK : 0 < K.
Hypothesis Ht : 0 < t.
Hypothesis Hs : 0 < s.
Notation o := (GBSOption S K t r b (Some s)).

Lemma F_opp x : F (- x) = 1 - F x. Proof. generalize (HFs x); lra. Qed.


Lemma greek_delta call : exists d,
  gbs_delta_F F call o = Ok d /\
  is_price_greek F call (fun x => x) (fun _ => K) (fun _ => t) (fun _ => r) (fun _ => b) (fun _ => s) S d.
Proof.
  eexists. split; [reflexivity|].
  destruct (price_derive F call (fun x => x) (fun _ => K) (fun _ => t) (fun _ => r) (fun _ => b) (fun _ => s)
    S (exp ((b - r) * t)) 0 0 (mkposreal S HS) HF) as [E D].
  - simpl. intros q Hq. apply near_pos in Hq; auto.
  - auto_derive; [easy|]. unfold Rminus; ring.
  - auto_derive; [easy|]. unfold Rminus; ring.
  - auto_derive; [easy|]. unfold Rminus; ring.
  - eexists. exists (mkposreal S HS). split; [exact E|].
    evar_last; [exact D|]. cbv beta. unfold bprice', GBSOption. cbn [g_sigma g_d1 g_d2 g_S g_K g_t g_r g_b].
    rewrite (d1_link S K t r b s) by (assumption || lra). toR.
    destruct call; rewrite ?F_opp; ring.
Qed.

Lemma greek_vega call : exists d,
  gbs_vega_F o = Ok d /\
  is_price_greek F call (fun _ => S) (fun _ => K) (fun _ => t) (fun _ => r) (fun _ => b) (fun x => x) s d.
Proof.
  eexists. split; [reflexivity|].
  destruct (price_derive F call (fun _ => S) (fun _ => K) (fun _ => t) (fun _ => r) (fun _ => b) (fun x => x)
    s 0 0 (sqrt t) (mkposreal s Hs) HF) as [E D].
  - simpl. intros q Hq. apply near_pos in Hq; auto.
  - auto_derive; [easy|]. unfold Rminus; ring.
  - auto_derive; [easy|]. unfold Rminus; ring.
  - auto_derive; [easy|]. unfold Rminus; ring.
  - eexists. exists (mkposreal s Hs). split; [exact E|].
    evar_last; [exact D|]. cbv beta. unfold bprice', GBSOption. cbn [g_sigma g_d1 g_d2 g_S g_K g_t g_r g_b].
    rewrite ndf_npdf, (d1_link S K t r b s) by (assumption || lra). toR.
    destruct call; ring.
Qed.

Lemma greek_theta call : exists d,
  gbs_theta_F F call o = Ok d /\
  is_price_greek F call (fun _ => S) (fun _ => K) (fun x => x) (fun _ => r) (fun _ => b) (fun _ => s) t (- d).
Proof.
  eexists. split; [reflexivity|].
  destruct (price_derive F call (fun _ => S) (fun _ => K) (fun x => x) (fun _ => r) (fun _ => b) (fun _ => s)
    t (S * ((b - r) * exp ((b - r) * t))) (K * (- r * exp (- r * t))) (s * / (2 * sqrt t)) (mkposreal t Ht) HF) as [E D].
  - simpl. intros q Hq. apply near_pos in Hq; auto.
  - auto_derive; [easy|]. unfold Rminus; ring.
  - auto_derive; [easy|]. unfold Rminus; ring.
  - auto_derive; [easy|]. unfold Rminus; ring.
  - eexists. exists (mkposreal t Ht). split; [exact E|].
    evar_last; [exact D|]. cbv beta. unfold bprice', GBSOption. cbn [g_sigma g_d1 g_d2 g_S g_K g_t g_r g_b].
    rewrite !ndf_npdf, !(d1_link S K t r b s), !(d2_link S K t r b s) by (assumption || lra). toR.
    assert (P := sqrt_t_pos t Ht).
    destruct call; field; lra.
Qed.

Lemma greek_cofc call : exists d,
  gbs_cofc_F F call o = Ok d /\
  is_price_greek F call (fun _ => S) (fun _ => K) (fun _ => t) (fun _ => r) (fun x => x) (fun _ => s) b d.
Proof.
  eexists. split; [reflexivity|].
  destruct (price_derive F call (fun _ => S) (fun _ => K) (fun _ => t) (fun _ => r) (fun x => x) (fun _ => s)
    b (S * (t * exp ((b - r) * t))) 0 0 (mkposreal 1 Rlt_0_1) HF) as [E D].
  - simpl. intros q Hq. auto.
  - auto_derive; [easy|]. unfold Rminus; ring.
  - auto_derive; [easy|]. unfold Rminus; ring.
  - auto_derive; [easy|]. unfold Rminus; ring.
  - eexists. exists (mkposreal 1 Rlt_0_1). split; [exact E|].
    evar_last; [exact D|]. cbv beta. unfold bprice', GBSOption. cbn [g_sigma g_d1 g_d2 g_S g_K g_t g_r g_b].
    rewrite !(d1_link S K t r b s) by (assumption || lra). toR.
    destruct call; ring.
Qed.

(** b <> 0: r and b move together *)
Lemma greek_rho call : b <> 0 -> exists d,
  gbs_rho_F F call o = Ok d /\
  is_price_greek F call (fun _ => S) (fun _ => K) (fun _ => t) (fun x => r + x) (fun x => b + x) (fun _ => s) 0 d.
Proof.
  intros Hb. unfold gbs_rho_F.
  assert (Eb : (b =? lit 0)%num = false) by (toR; apply Reqb_false; lra).
  unfold with_d, GBSOption. cbn [g_sigma g_d1 g_d2 g_b].  rewrite Eb. cbn [negb].
  exists (if call then t * K * exp (- r * t) * F (gbs_d2 S K t b s) else - t * K * exp (- r * t) * F (- gbs_d2 S K t b s)).
  split. { destruct call; reflexivity. }
  destruct (price_derive F call (fun _ => S) (fun _ => K) (fun _ => t) (fun x => r + x) (fun x => b + x) (fun _ => s)
    0 0 (K * (- t * exp (- r * t))) 0 (mkposreal 1 Rlt_0_1) HF) as [E D].
  - simpl. intros q Hq. auto.
  - auto_derive; [easy|]. unfold Rminus; ring.
  - auto_derive; [easy|]. rewrite Rplus_0_r. ring.
  - auto_derive; [easy|]. unfold Rminus; ring.
  - eexists. exists (mkposreal 1 Rlt_0_1). split; [exact E|].
    evar_last; [exact D|]. cbv beta. unfold bprice'. rewrite !Rplus_0_r.
    rewrite !(d2_link S K t r b s) by (assumption || lra).
    destruct call; ring.
Qed.

Lemma greek_rho0 call : b = 0 -> exists d,
  gbs_rho_F F call o = Ok d /\
  is_price_greek F call (fun _ => S) (fun _ => K) (fun _ => t) (fun x => x) (fun _ => b) (fun _ => s) r d.
Proof.
  intros Hb. unfold gbs_rho_F.
  assert (Eb : (b =? lit 0)%num = true) by (toR; apply Reqb_true; lra).
  exists (- t * bprice F call (S * exp ((b - r) * t)) (K * exp (- r * t)) (s * sqrt t)).
  split.
  { unfold with_d. rewrite call_link, put_link by (assumption || lra).
    unfold GBSOption. cbn [g_sigma g_d1 g_d2 g_b g_t bind].  rewrite Eb. cbn [negb].
    destruct call; reflexivity. }
  destruct (price_derive F call (fun _ => S) (fun _ => K) (fun _ => t) (fun x => x) (fun _ => b) (fun _ => s)
    r (S * (- t * exp ((b - r) * t))) (K * (- t * exp (- r * t))) 0 (mkposreal 1 Rlt_0_1) HF) as [E D].
  - simpl. intros q Hq. auto.
  - auto_derive; [easy|]. unfold Rminus. ring.
  - auto_derive; [easy|]. unfold Rminus; ring.
  - auto_derive; [easy|]. unfold Rminus; ring.
  - eexists. exists (mkposreal 1 Rlt_0_1). split; [exact E|].
    evar_last; [exact D|]. cbv beta. unfold bprice', bprice, bcall, bput.
    destruct call; ring.
Qed.

(** gamma is the derivative of delta *)
Lemma greek_gamma call : exists d (g : R -> R),
  gbs_gamma_F o = Ok d /\
  (forall x, 0 < x -> gbs_delta_F F call (GBSOption x K t r b (Some s)) = Ok (g x)) /\
  is_derive g S d.
Proof.
  eexists. eexists. split; [reflexivity|]. split.
  - intros x Hx. instantiate (1 := fun x => if call then exp ((b - r) * t) * F (gbs_d1 x K t b s)
      else exp ((b - r) * t) * (F (gbs_d1 x K t b s) - 1)).
    unfold gbs_delta_F, with_d, GBSOption. cbn [g_sigma g_d1 g_d2 g_S g_K g_t g_r g_b]. toR. reflexivity.
  - assert (P := sqrt_t_pos t Ht).
    assert (D : is_derive (fun x => gbs_d1 x K t b s) S (/ (S * s * sqrt t))).
    { unfold gbs_d1. toR. auto_derive.
      - repeat split; try lra. apply Rdiv_lt_0_compat; lra. 
      - unfold Rdiv. field. lra. }
    assert (D1 : is_derive (fun x => F (gbs_d1 x K t b s)) S (/ (S * s * sqrt t) * npdf (gbs_d1 S K t b s))).
    { apply (is_derive_comp F (fun x => gbs_d1 x K t b s)); [apply HF|exact D]. }
    cbn [g_sigma g_d1 g_d2 g_S g_K g_t g_r g_b]. rewrite ndf_npdf. toR.
    destruct call.
    + evar_last. { apply (is_derive_scal (fun x => F (gbs_d1 x K t b s)) S (exp ((b - r) * t)) _ D1). }
      simpl. field. lra.
    + evar_last. { apply (is_derive_scal (fun x => F (gbs_d1 x K t b s) - 1) S (exp ((b - r) * t))).
        apply (is_derive_minus (fun x => F (gbs_d1 x K t b s)) (fun _ => 1)); [exact D1 | apply is_derive_const]. }
      hier. field. lra.
Qed.

End G.
