(** The tree plotters annotate every node once per visit with its own value. *)
From Coq Require Import String List Arith ZArith Lia Bool.
From Verif Require Import Num Py Arr MTrees STrees MPlot PTrees.
Import ListNotations.
Open Scope py_scope.
Open Scope Z_scope.

Lemma for_collect {B E : Type} (xs : list B) (b : B -> list E -> res (list E)) (P : B -> E -> Prop) :
  (forall x acc, In x xs -> exists o, b x acc = Ok (acc ++ o)%list /\ forall e, In e o <-> P x e) ->
  forall acc, exists o, for_ xs b acc = Ok (acc ++ o)%list /\ forall e, In e o <-> exists x, In x xs /\ P x e.
Proof.
  induction xs as [|x xs IH]; intros H acc; simpl.
  - exists []. rewrite app_nil_r. split; auto. intro e; split; [intros []|intros (x & [] & _)].
  - destruct (H x acc (or_introl eq_refl)) as (o & E1 & Ho). rewrite E1. simpl.
    destruct (IH (fun y a Hy => H y a (or_intror Hy)) (acc ++ o)%list) as (o' & E2 & Ho').
    exists (o ++ o')%list. rewrite E2, app_assoc. split; auto.
    intro e. rewrite in_app_iff, Ho, Ho'. split.
    + intros [A|(y & Hy & A)]; eauto.
    + intros (y & [->|Hy] & A); eauto.
Qed.

Lemma where_above n lo y j : lo < y -> where_eq (arange_down n lo) y j = [].
Proof.
  revert lo j. induction n; intros; simpl; auto.
  destruct (Z.eqb_spec lo y); [lia|]. apply IHn. lia.
Qed.
Lemma where_arange n lo k j : (k < n)%nat ->
  where_eq (arange_down n lo) (lo - 2 * Z.of_nat k) j = [(j + k)%nat].
Proof.
  revert lo k j. induction n; intros lo k j H; [lia|]. cbn [arange_down where_eq].
  destruct k as [|k].
  - destruct (Z.eqb_spec lo (lo - 2 * Z.of_nat 0)); [|lia]. rewrite where_above by lia. f_equal. lia.
  - destruct (Z.eqb_spec lo (lo - 2 * Z.of_nat (S k))); [lia|].
    replace (lo - 2 * Z.of_nat (S k)) with (lo - 2 - 2 * Z.of_nat k) by lia.
    rewrite IHn by lia. f_equal. lia.
Qed.
Lemma convert_ok (ups downs : nat) :
  convert_to_index (Z.of_nat ups + Z.of_nat downs, Z.of_nat ups - Z.of_nat downs) = Ok downs.
Proof.
  unfold convert_to_index. cbn [fst snd].
  destruct (Z.ltb_spec 0 (Z.of_nat ups + Z.of_nat downs)).
  - replace (Z.of_nat ups - Z.of_nat downs)
      with (Z.of_nat ups + Z.of_nat downs - 2 * Z.of_nat downs) by lia.
    rewrite where_arange by lia. reflexivity.
  - f_equal. lia.
Qed.

Definition px (k : nat) : Z := if Nat.even k then 1 else 0.
Lemma concat01 i s : Nat.even s = false -> concat (repeat [0; 1] i) = map px (seq s (2 * i)).
Proof.
  revert s. induction i; intros s Hs; auto.
  replace (2 * S i)%nat with (S (S (2 * i))) by lia. cbn [repeat concat seq map app].
  rewrite (IHi (S (S s))) by (simpl; auto).
  assert (E : Nat.even (S s) = true) by (rewrite Nat.even_succ, <- Nat.negb_even, Hs; auto).
  unfold px at 2 3. now rewrite E, Hs.
Qed.
Lemma combine_map {A B C : Type} (f : A -> B) (g : A -> C) l :
  combine (map f l) (map g l) = map (fun x => (f x, g x)) l.
Proof. induction l; simpl; congruence. Qed.

Lemma bi_points_eq i :
  bi_points i = map (fun k => (px k + Z.of_nat i, Z.of_nat i + 1 - Z.of_nat k)) (seq 0 (2 * i + 3)).
Proof.
  unfold bi_points. rewrite (concat01 i 3) by reflexivity.
  replace ([1; 0; 1] ++ map px (seq 3 (2 * i)))%list with (map px (seq 0 (2 * i + 3))).
  2:{ replace (2 * i + 3)%nat with (3 + 2 * i)%nat by lia. reflexivity. }
  rewrite map_map.
  replace (rev (map (fun k => Z.of_nat k - (Z.of_nat i + 1)) (seq 0 (2 * i + 3))))
    with (map (fun k => Z.of_nat i + 1 - Z.of_nat k) (seq 0 (2 * i + 3))).
  - apply combine_map.
  - apply list_ext.
    + now rewrite rev_length, !map_length.
    + intros k H. rewrite map_length, seq_length in H.
      rewrite nth_error_rev by (rewrite map_length, seq_length; lia).
      rewrite map_length, seq_length. rewrite !nth_error_map_seq by lia. f_equal. lia.
Qed.

Lemma bi_point_iff i p : In p (bi_points i) <->
  exists ups downs, p = (Z.of_nat ups + Z.of_nat downs, Z.of_nat ups - Z.of_nat downs) /\
    (i <= ups + downs <= i + 1)%nat.
Proof.
  rewrite bi_points_eq, in_map_iff. split.
  - intros (k & <- & Hk). apply in_seq in Hk. unfold px. destruct (Nat.even k) eqn:E.
    + apply Nat.even_spec in E. destruct E as [h ->]. exists (i + 1 - h)%nat, h. split; [f_equal; lia|lia].
    + assert (O : Nat.odd k = true) by (rewrite <- Nat.negb_even, E; auto).
      apply Nat.odd_spec in O. destruct O as [h ->]. exists (i - h)%nat, h. split; [f_equal; lia|lia].
  - intros (u & d & -> & H). destruct (Nat.eq_dec (u + d) i) as [E|E].
    + exists (2 * d + 1)%nat. split; [|apply in_seq; lia]. unfold px.
      replace (Nat.even (2 * d + 1)) with false; [f_equal; lia|].
      symmetry. apply not_true_iff_false. intro X. apply Nat.even_spec in X. destruct X. lia.
    + exists (2 * d)%nat. split; [|apply in_seq; lia]. unfold px.
      replace (Nat.even (2 * d)) with true; [f_equal; lia|].
      symmetry. apply Nat.even_spec. now exists d.
Qed.

Section P.
Context {T : Type}.

Lemma ncols_matrix (m : list (list T)) r c : is_matrix m (S r) c -> ncols m = c.
Proof. intros [L H]. destruct m as [|row m]; [simpl in L; lia|]. apply (H 0%nat). reflexivity. Qed.

Lemma mget_in (m : list (list T)) r c i j : is_matrix m r c -> (i < r)%nat -> (j < c)%nat ->
  exists v, mget m i j = Ok v.
Proof.
  intros [L H] Hi Hj. unfold mget, get at 1.
  destruct (nth_error m i) as [row|] eqn:E; [|apply nth_error_None in E; lia]. simpl.
  specialize (H _ _ E). unfold get.
  destruct (nth_error row j) as [v|] eqn:E2; [|apply nth_error_None in E2; lia]. simpl. eauto.
Qed.

Lemma pyget_nonneg (m : list (list T)) (i j : nat) : pyget m (Z.of_nat i) (Z.of_nat j) = mget m i j.
Proof.
  unfold pyget, mget. destruct (Z.leb_spec 0 (Z.of_nat i)); [|lia]. simpl. rewrite Nat2Z.id.
  destruct (get m i) as [row|]; simpl; auto. destruct (Z.leb_spec 0 (Z.of_nat j)); [|lia].
  simpl. now rewrite Nat2Z.id.
Qed.

Lemma bi_plot_spec (m : list (list T)) n : is_matrix m (n + 1) (n + 1) -> n <> 0%nat ->
  exists out, bi_plot m = Ok out /\
    forall x y v, In ((x, y), v) out <->
      exists ups downs, x = Z.of_nat ups + Z.of_nat downs /\ y = Z.of_nat ups - Z.of_nat downs /\
        (ups + downs <= n)%nat /\ mget m downs (ups + downs) = Ok v.
Proof.
  intros M Hn. unfold bi_plot.
  rewrite (ncols_matrix m n (n + 1)) by (now replace (S n) with (n + 1)%nat by lia).
  replace (n + 1 - 1)%nat with n by lia.
  set (node := fun (ups downs : nat) (e : (Z * Z) * T) =>
    fst e = (Z.of_nat ups + Z.of_nat downs, Z.of_nat ups - Z.of_nat downs) /\
    mget m downs (ups + downs) = Ok (snd e)).
  set (P := fun (i : nat) (e : (Z * Z) * T) =>
    exists ups downs, (i <= ups + downs <= i + 1)%nat /\ node ups downs e).
  match goal with |- context [for_ (seq 0 n) ?b []] =>
    destruct (for_collect (seq 0 n) b P) with (acc := @nil ((Z * Z) * T)) as (o & E & Ho) end.
  - intros i acc Hi. apply in_seq in Hi.
    match goal with |- context [for_ (bi_points i) ?b acc] =>
      destruct (for_collect (bi_points i) b
        (fun p e => exists ups downs, p = (Z.of_nat ups + Z.of_nat downs, Z.of_nat ups - Z.of_nat downs)
           /\ node ups downs e)) with (acc := acc) as (o & E & Ho) end.
    + intros p a Hp. apply bi_point_iff in Hp. destruct Hp as (u & d & -> & H).
      rewrite convert_ok. simpl bind. cbn [fst].
      rewrite <- Nat2Z.inj_add, pyget_nonneg.
      destruct (mget_in m _ _ d (u + d) M ltac:(lia) ltac:(lia)) as (v & Ev). rewrite Ev. simpl bind.
      exists [((Z.of_nat (u + d), Z.of_nat u - Z.of_nat d), v)]. split; [reflexivity|].
      intro e; split.
      * intros [<-|[]]. exists u, d. rewrite Nat2Z.inj_add. unfold node. cbn [fst snd].
        auto.
      * intros (u' & d' & E1 & E2 & E3). injection E1 as X1 X2.
        assert (u' = u) by lia. assert (d' = d) by lia. subst.
        destruct e as [p w]. cbn [fst snd] in *. rewrite Ev in E3. injection E3 as ->. left.
        rewrite E2, Nat2Z.inj_add. reflexivity.
    + exists o. split; auto. intro e. rewrite Ho. unfold P. split.
      * intros (p & Hp & u & d & -> & N). apply bi_point_iff in Hp. destruct Hp as (u' & d' & E1 & H).
        injection E1 as X1 X2. exists u, d. split; auto. lia.
      * intros (u & d & H & N). eexists; split; [|exists u, d; split; [reflexivity|exact N]].
        apply bi_point_iff. eauto.
  - simpl app in E. exists o. split; auto. intros x y v. rewrite Ho. unfold P, node. cbn [fst snd]. split.
    + intros (i & Hi & u & d & H & E1 & E2). apply in_seq in Hi. injection E1 as -> ->.
      exists u, d. repeat split; auto. lia.
    + intros (u & d & -> & -> & H & E1).
      exists (u + d - 1)%nat. split; [apply in_seq; lia|]. exists u, d. repeat split; auto; lia.
Qed.

Lemma pyget_Z (m : list (list T)) (i j : Z) : 0 <= i -> 0 <= j -> pyget m i j = mget m (Z.to_nat i) (Z.to_nat j).
Proof. intros. rewrite <- pyget_nonneg. now rewrite !Z2Nat.id. Qed.

Lemma tri_plot_spec (m : list (list T)) n : is_matrix m (2 * n + 1) (n + 1) -> n <> 0%nat ->
  exists out, tri_plot m = Ok out /\
    forall x y v, In ((x, y), v) out <->
      exists (c : nat) , x = Z.of_nat c /\ (c <= n)%nat /\ - x <= y <= x /\
        mget m (Z.to_nat (Z.of_nat n - y)) c = Ok v.
Proof.
  intros M Hn. unfold tri_plot.
  assert (Ec : ncols m = (n + 1)%nat).
  { apply (ncols_matrix m (2 * n)). now replace (S (2 * n)) with (2 * n + 1)%nat by lia. }
  rewrite Ec. replace (n + 1 - 1)%nat with n by lia.
  set (node := fun (c : nat) (y : Z) (e : (Z * Z) * T) =>
    fst e = (Z.of_nat c, y) /\ mget m (Z.to_nat (Z.of_nat n - y)) c = Ok (snd e)).
  set (P := fun (i : nat) (e : (Z * Z) * T) => exists y, - Z.of_nat i <= y <= Z.of_nat i /\ (1 <= i)%nat /\ node i y e).
  match goal with |- context [for_ (seq 0 (n + 1)) ?b []] =>
    destruct (for_collect (seq 0 (n + 1)) b P) with (acc := @nil ((Z * Z) * T)) as (o & E & Ho) end.
  - intros i acc Hi. apply in_seq in Hi.
    match goal with |- context [for_ ?l ?b acc] =>
      destruct (for_collect l b (fun j e => exists c, -1 <= c <= 1 /\ node i (c + j) e)) with (acc := acc) as (o & E & Ho) end.
    + intros j a Hj. apply in_map_iff in Hj. destruct Hj as (k & <- & Hk). apply in_seq in Hk.
      set (j := Z.of_nat k - Z.of_nat i + 1). unfold tri_plot_node.
      match goal with |- context [for_ ?l ?b a] =>
        destruct (for_collect l b (fun c e => node i (c + j) e)) with (acc := a) as (o & E & Ho) end.
      * intros c a' Hc. assert (-1 <= c <= 1) by (simpl in Hc; lia).
        rewrite Ec. cbn [fst snd]. replace (1 + (Z.of_nat i - 1)) with (Z.of_nat i) by lia.
        rewrite pyget_Z by (unfold j; lia). rewrite Nat2Z.id.
        replace (- (c + j) + (Z.of_nat (n + 1) - 1)) with (Z.of_nat n - (c + j)) by lia.
        destruct (mget_in m _ _ (Z.to_nat (Z.of_nat n - (c + j))) i M ltac:(unfold j; lia) ltac:(lia)) as (v & Ev).
        rewrite Ev. simpl bind. eexists [_]. split; [reflexivity|].
        intro e; split.
        -- intros [<-|[]]. split; auto.
        -- intros [E1 E2]. destruct e as [p w]. cbn [fst snd] in *. left. congruence.
      * exists o. split; auto. intro e. rewrite Ho. split.
        -- intros (c & Hc & N). exists c. split; auto. simpl in Hc. lia.
        -- intros (c & Hc & N). exists c. split; auto. simpl. lia.
    + exists o. split; auto. intro e. rewrite Ho. unfold P. split.
      * intros (j & Hj & c & Hc & N). apply in_map_iff in Hj. destruct Hj as (k & <- & Hk). apply in_seq in Hk.
        eexists; split; [|split; [|exact N]]; lia.
      * intros (y & Hy & Hi1 & N).
        (* choose c = sign of y *)
        exists (y - Z.sgn y). split.
        -- apply in_map_iff. exists (Z.to_nat (y - Z.sgn y + Z.of_nat i - 1)). split; [lia|apply in_seq; lia].
        -- exists (Z.sgn y). split; [lia|]. now replace (Z.sgn y + (y - Z.sgn y)) with y by lia.
  - simpl app in E. rewrite E. simpl bind.
    change (pyget m (Z.of_nat n) 0) with (pyget m (Z.of_nat n) (Z.of_nat 0)). rewrite pyget_nonneg.
    destruct (mget_in m _ _ n 0 M ltac:(lia) ltac:(lia)) as (v0 & Ev0). rewrite Ev0. simpl bind.
    eexists. split; [reflexivity|]. intros x y v. rewrite in_app_iff, Ho. unfold P, node. cbn [fst snd]. split.
    + intros [(i & Hi & y' & Hy & H1 & E1 & E2)|[E1|[]]].
      * apply in_seq in Hi. injection E1 as -> ->. exists i. repeat split; auto; lia.
      * injection E1 as <- <- <-. exists 0%nat. repeat split; auto; try lia.
        rewrite Z.sub_0_r, Nat2Z.id. auto.
    + intros (c & -> & Hc & Hy & Em). destruct (Nat.eq_dec c 0) as [->|Hc0].
      * right. left. assert (y = 0) by lia. subst. rewrite Z.sub_0_r, Nat2Z.id in Em. simpl. congruence.
      * left. exists c. split; [apply in_seq; lia|]. exists y. repeat split; auto; lia.
Qed.
End P.

(*@ C33_binomial_plot | Plotting the tree matrix of a CRR/JR/TIAN option never fails; the annotation at (x, y) is exactly the matrix entry (downs, ups + downs) of the node reached by [ups] up and [downs] down moves with x = ups + downs, y = ups - downs, and every node is annotated. *)
Lemma binomial_plot : forall (T : Type) (N : Num T) k (o : TreeOption T) (call amer : bool),
  to_n o <> 0%nat -> to_type o = the_type amer ->
  exists m out, tree_price (Bi k) o call true = Ok (Matrix m) /\ bi_plot m = Ok out /\
    forall x y v, In ((x, y), v) out <->
      exists ups downs, (x = Z.of_nat ups + Z.of_nat downs /\ y = Z.of_nat ups - Z.of_nat downs)%Z /\
        (ups + downs <= to_n o)%nat /\ mget m downs (ups + downs) = Ok v.
Proof.
  intros T N k o call amer Hn Ht.
  destruct (bi_tree_value k o (if call then 1 else -1) amer Hn Ht) as (m & E & M & _).
  destruct (bi_plot_spec m (to_n o) M Hn) as (out & E2 & H).
  exists m, out. split; [rewrite <- E; destruct call; reflexivity|split; auto].
  intros x y v. rewrite H. split; intros (u & d & X); exists u, d; tauto.
Qed.

(*@ C33_trinomial_plot | Plotting the tree matrix of a TrinomialTreeOption never fails; the annotation at (x, y) is the matrix entry in row n - y of column x, where |y| <= x (never the zero padding), and every node is annotated. *)
Lemma trinomial_plot : forall (T : Type) (N : Num T) (o : TreeOption T) (call amer : bool),
  to_n o <> 0%nat -> to_type o = the_type amer ->
  exists m out, tree_price Tri o call true = Ok (Matrix m) /\ tri_plot m = Ok out /\
    forall x y v, In ((x, y), v) out <->
      exists c : nat, x = Z.of_nat c /\ (c <= to_n o)%nat /\ (- x <= y <= x)%Z /\
        mget m (Z.to_nat (Z.of_nat (to_n o) - y)%Z) c = Ok v.
Proof.
  intros T N o call amer Hn Ht.
  destruct (tri_tree_value o (if call then 1 else -1) amer Hn Ht) as (m & E & M & _).
  destruct (tri_plot_spec m (to_n o) M Hn) as (out & E2 & H).
  exists m, out. split; [|split; auto]. rewrite <- E. destruct call; reflexivity.
Qed.
