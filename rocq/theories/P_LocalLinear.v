(** Proofs about gradients.local_linear_gradients *)
From Coq Require Import Reals Lra Lia List Arith ZArith String Bool Permutation.
From Verif Require Import Prelude Py NumArr LinAlg Lsq Sorting M_Misc M_SimRunners M_Gradients P_Misc.
Import ListNotations.
Open Scope R_scope.

(** ** mmap *)
Lemma mmap_all : forall W A B (P : B -> Prop) (f : A -> M W B),
  (forall x w b w', f x w = (Ok b, w') -> P b) ->
  forall l w bs w', mmap f l w = (Ok bs, w') -> List.length bs = List.length l /\ Forall P bs.
Proof.
  intros W A B P f Hf. induction l as [|x l IH]; intros w bs w' H; simpl in H.
  - inversion H. auto.
  - apply mbind_ok in H. destruct H as (b & w1 & H1 & H).
    apply mbind_ok in H. destruct H as (bs' & w2 & H2 & H).
    inversion H; subst. destruct (IH _ _ _ H2) as [L F]. simpl. split; [lia|]. constructor; eauto.
Qed.

Lemma mmap_total : forall W A B (f : A -> M W B),
  (forall x w, exists b w', f x w = (Ok b, w')) ->
  forall l w, exists bs w', mmap f l w = (Ok bs, w').
Proof.
  intros W A B f Hf. induction l as [|x l IH]; intros w; simpl.
  - eexists; eexists; reflexivity.
  - destruct (Hf x w) as (b & w1 & E). destruct (IH w1) as (bs & w2 & E2).
    exists (b :: bs), w2. unfold mbind. rewrite E, E2. reflexivity.
Qed.

(** ** the mask *)
Lemma mask_select_incl : forall A (l : list A) mask x, In x (mask_select l mask) -> In x l.
Proof.
  intros A l mask x H. unfold mask_select in H. apply in_map_iff in H. destruct H as ((a, b) & <- & H).
  apply filter_In in H. destruct H as [H _]. now apply in_combine_l in H.
Qed.
Lemma mask_select_NoDup : forall A (l : list A) mask, NoDup l -> NoDup (mask_select l mask).
Proof.
  intros A. induction l as [|x l IH]; intros mask H; unfold mask_select; simpl; [constructor|].
  destruct mask as [|b mask]; [constructor|]. inversion H; subst. simpl. destruct b; simpl; [|now apply IH].
  constructor; [|now apply IH]. intros Hx. apply mask_select_incl in Hx. contradiction.
Qed.
Lemma mask_select_length : forall A (l : list A) mask, List.length l = List.length mask ->
  List.length (mask_select l mask) = List.length (filter (fun b => b) mask).
Proof.
  intros A. induction l as [|x l IH]; intros [|b mask] H; try discriminate; auto.
  unfold mask_select in *. simpl in *. destruct b; simpl; rewrite IH by lia; reflexivity.
Qed.

Lemma filter_map : forall A B (f : A -> B) p l, filter p (map f l) = map f (filter (fun x => p (f x)) l).
Proof. induction l; simpl; auto. destruct (p (f a)); simpl; now rewrite IHl. Qed.

Section LL.
  Variable argsort : list R -> list nat.
  Hypothesis HA : argsort_contract argsort.

  Lemma ll_D2_length : forall X ii, List.length (ll_D2 X ii) = nrows X.
  Proof. intros. unfold ll_D2. now rewrite map_length, seq_length. Qed.

  Lemma ll_ind_NoDup : forall X ii, NoDup (ll_ind argsort X ii).
  Proof. intros. apply mask_select_NoDup, argsort_NoDup, HA. Qed.
  Lemma ll_ind_lt : forall X ii k, In k (ll_ind argsort X ii) -> (k < nrows X)%nat.
  Proof.
    intros X ii k H. apply mask_select_incl in H. apply (argsort_In argsort _ k HA) in H. now rewrite ll_D2_length in H.
  Qed.
  (** how many neighbours are available: samples at positive distance *)
  Lemma ll_ind_length : forall X ii, List.length (ll_ind argsort X ii) =
    List.length (filter (fun i => neq0b (sqdist X i ii)) (seq 0 (nrows X))).
  Proof.
    intros. unfold ll_ind. rewrite mask_select_length.
    - unfold ll_D2. rewrite map_map, filter_map, map_length. reflexivity.
    - rewrite map_length, argsort_length by auto. reflexivity.
  Qed.

  Lemma sqdist_self : forall X i, sqdist X i i = 0.
  Proof. intros. apply sumf_zero. intros; ring. Qed.

  Lemma ll_ind_short : forall X ii, (ii < nrows X)%nat -> (List.length (ll_ind argsort X ii) < nrows X)%nat.
  Proof.
    intros X ii H. rewrite ll_ind_length. rewrite <- (seq_length (nrows X) 0) at 2.
    assert (Hin : In ii (seq 0 (nrows X))) by (apply in_seq; lia).
    revert Hin. generalize (seq 0 (nrows X)). induction l as [|a l IH]; intros Hin; [destruct Hin|].
    simpl. destruct Hin as [->|Hin].
    - unfold neq0b at 1. rewrite sqdist_self. destruct (Req_EM_T 0 0); [|lra].
      assert (forall (p : nat -> bool) l, (List.length (filter p l) <= List.length l)%nat).
      { intros p. induction l0; simpl; auto. destruct (p a); simpl; lia. }
      specialize (H0 (fun i => neq0b (sqdist X i ii)) l). lia.
    - specialize (IH Hin). destruct (neq0b (sqdist X a ii)); simpl; lia.
  Qed.

  Variable lstsq : nd R -> nd R -> res (nd R).
  Hypothesis HL : lstsq_contract lstsq.

  (** Local design matrix of the samples listed in [l]: columns 1, x_1..x_m. *)
  Definition design (X : nd R) (l : list nat) (i j : nat) : R :=
    match j with O => 1 | S k => X.[nth i l 0%nat, k] end.
  (** any p samples determine an affine function *)
  Definition general_position (X : nd R) (M m p : nat) : Prop :=
    forall l, NoDup l -> List.length l = p -> (forall k, In k l -> (k < M)%nat) -> full_rank p (S m) (design X l).

  Lemma firstn_In : forall A n (l : list A) x, In x (firstn n l) -> In x l.
  Proof. intros A n l x H. rewrite <- (firstn_skipn n l). apply in_or_app; auto. Qed.
  Lemma firstn_NoDup : forall A n (l : list A), NoDup l -> NoDup (firstn n l).
  Proof.
    intros A. induction n; intros l H; simpl; [constructor|]. destruct l; [constructor|].
    inversion H; subst. constructor; auto. intros Hx. apply firstn_In in Hx. contradiction.
  Qed.

  (** what one local fit solves *)
  Lemma ll_fit_spec : forall X f weights M m p ii u, shape X = [M; m] -> shape f = [M; 1%nat] ->
    0 < weights.[ii, 0%nat] -> (0 < p)%nat ->
    ll_fit argsort lstsq X f weights p ii = Ok u ->
    let sel := firstn p (ll_ind argsort X ii) in
    List.length sel = p /\ shape u = [S m; 1%nat] /\
    lsq_min p (S m) (design X sel) (fun i => f.[nth i sel 0%nat, 0%nat]) (fun j => u.[j, 0%nat]).
  Proof.
    intros X f weights M m p ii u HX Hf Hw Hp H sel. unfold ll_fit in H. fold sel in H.
    apply rbind_ok in H. destruct H as (Xs & H1 & H).
    unfold take_rows in H1. destruct (forallb _ sel); [|discriminate]. injection H1 as H1.
    apply rbind_ok in H. destruct H as (A0 & H2 & H).
    assert (HXs : shape Xs = [List.length sel; m]).
    { rewrite <- H1, shape_mk2. now rewrite (ncols_shape2 _ _ _ _ HX). }
    unfold hstack in H2. rewrite HXs in H2. cbn [ones2 mk2 shape] in H2.
    destruct (Nat.eqb_spec p (List.length sel)) as [EP|]; [|discriminate]. injection H2 as H2.
    apply rbind_ok in H. destruct H as (wii & H3 & H).
    destruct (Nat.ltb ii (nrows weights)); [|discriminate]. injection H3 as H3.
    apply rbind_ok in H. destruct H as (fs & H4 & H).
    unfold take_rows in H4. destruct (forallb _ sel); [|discriminate]. injection H4 as H4.
    split; [auto|].
    assert (SA : shape (amap (fun a => a * sqrt wii) A0) = [p; S m]) by (rewrite <- H2; reflexivity).
    assert (SF : shape (amap (fun a => a * sqrt wii) fs) = [p; 1%nat]).
    { rewrite <- H4. cbn [amap mk2 shape]. rewrite <- EP. now rewrite (ncols_shape2 _ _ _ _ Hf). }
    destruct (HL p (S m) _ _ u SA SF H) as [SU HU]. split; auto.
    apply (lsq_scale p (S m) (design X sel) (fun i => f.[nth i sel 0%nat, 0%nat]) _ (sqrt wii)).
    { rewrite <- H3. apply Rgt_not_eq, sqrt_lt_R0. exact Hw. }
    intros v. specialize (HU v). unfold rss, resid in *.
    rewrite (sumf_ext p _ (fun i => (sumf (S m) (fun j => design X sel i j * sqrt wii * u.[j, 0%nat]) - f.[nth i sel 0%nat, 0%nat] * sqrt wii)
        * (sumf (S m) (fun j => design X sel i j * sqrt wii * u.[j, 0%nat]) - f.[nth i sel 0%nat, 0%nat] * sqrt wii))) in HU.
    2:{ intros i Hi.
        rewrite (sumf_ext (S m) (fun j => (amap (fun a => a * sqrt wii) A0).[i, j] * u.[j, 0%nat]) (fun j => design X sel i j * sqrt wii * u.[j, 0%nat])).
        - rewrite <- H4. reflexivity.
        - intros j Hj. rewrite <- H2. cbn [amap at_ mk2 nth]. rewrite <- H1. unfold design.
          destruct j as [|k]; [reflexivity|]. cbn [Nat.ltb Nat.leb]. rewrite at_mk2. replace (S k - 1)%nat with k by lia. reflexivity. }
    rewrite (sumf_ext p (fun i => (sumf (S m) (fun j => (amap (fun a => a * sqrt wii) A0).[i, j] * v j) - _) * _)
         (fun i => (sumf (S m) (fun j => design X sel i j * sqrt wii * v j) - f.[nth i sel 0%nat, 0%nat] * sqrt wii)
        * (sumf (S m) (fun j => design X sel i j * sqrt wii * v j) - f.[nth i sel 0%nat, 0%nat] * sqrt wii))) in HU.
    2:{ intros i Hi.
        rewrite (sumf_ext (S m) (fun j => (amap (fun a => a * sqrt wii) A0).[i, j] * v j) (fun j => design X sel i j * sqrt wii * v j)).
        - rewrite <- H4. reflexivity.
        - intros j Hj. rewrite <- H2. cbn [amap at_ mk2 nth]. rewrite <- H1. unfold design.
          destruct j as [|k]; [reflexivity|]. cbn [Nat.ltb Nat.leb]. rewrite at_mk2. replace (S k - 1)%nat with k by lia. reflexivity. }
    exact HU.
  Qed.

  Lemma ll_fit_affine : forall X f weights M m p ii u a b, shape X = [M; m] -> shape f = [M; 1%nat] ->
    0 < weights.[ii, 0%nat] -> (0 < p)%nat ->
    (forall i, (i < M)%nat -> f.[i, 0%nat] = a + sumf m (fun j => b j * X.[i, j])) ->
    general_position X M m p ->
    ll_fit argsort lstsq X f weights p ii = Ok u ->
    forall j, (j < m)%nat -> u.[S j, 0%nat] = b j.
  Proof.
    intros X f weights M m p ii u a b HX Hf Hw Hp Haff HG H j Hj.
    destruct (ll_fit_spec X f weights M m p ii u HX Hf Hw Hp H) as (L & SU & HU).
    set (sel := firstn p (ll_ind argsort X ii)) in *.
    assert (Hlt : forall k, In k sel -> (k < M)%nat).
    { intros k Hk. apply firstn_In in Hk. apply ll_ind_lt in Hk. now rewrite (nrows_shape2 _ _ _ _ HX) in Hk. }
    assert (HR : full_rank p (S m) (design X sel)).
    { apply HG; auto. apply firstn_NoDup, ll_ind_NoDup. }
    apply (lsq_exact p (S m) _ _ _ (fun j => match j with O => a | S k => b k end) HR HU) with (j := S j); [|lia].
    intros i Hi. rewrite sumf_shift. cbn [design]. rewrite Haff.
    - rewrite Rmult_1_l. f_equal. apply sumf_ext; intros; ring.
    - apply Hlt, nth_In. lia.
  Qed.

  Section World.
    Context {G : gen} {U : Type}.
    Notation W := (world G U (nd R)).

    Definition weights_ok (weights : option (nd R)) (M : nat) : Prop :=
      match weights with None => True | Some wt => shape wt = [M; 1%nat] /\ forall i, (i < M)%nat -> 0 < wt.[i, 0%nat] end.

    Lemma weights_pos : forall weights M ii, weights_ok weights M -> (ii < M)%nat ->
      let wt := match weights with None => mk2 M 1 (fun _ _ => / INR M) | Some w => w end in
      0 < wt.[ii, 0%nat] /\ nrows wt = M.
    Proof.
      intros [wt|] M ii H Hi; simpl.
      - destruct H as [H1 H2]. split; auto. eapply nrows_shape2; eauto.
      - split; [|reflexivity]. apply Rinv_0_lt_compat, lt_0_INR. lia.
    Qed.

    (** shape of a successful call *)
    Lemma ll_inv : forall X f p weights M m (w : W) df w', shape X = [M; m] ->
      local_linear_gradients argsort lstsq X f p weights w = (Ok df, w') ->
      exists pz MM rows, ll_p p M m = Ok pz /\ (Z.of_nat m + 1 <= pz <= Z.of_nat M)%Z /\ (m < M)%nat /\
        ll_MM M m = Ok MM /\ shape df = [MM; m] /\ List.length rows = MM /\
        df = mk2 MM m (fun i j => (nth i rows (zeros2 (S m) 1)).[S j, 0%nat]) /\
        mmap (fun _ : nat => dom ii <- draw_randint M;
          mlift (ll_fit argsort lstsq X f (match weights with None => mk2 M 1 (fun _ _ => / INR M) | Some wt => wt end) (Z.to_nat pz) ii)) (seq 0 MM) w = (Ok rows, w').
    Proof.
      intros X f p weights M m w df w' HX H. unfold local_linear_gradients in H.
      unfold mlift at 1 in H. rewrite (process_inputs_eq _ X M m HX) in H. unfold mbind at 1 in H.
      destruct (Nat.leb_spec M m); [discriminate|].
      apply mbind_ok in H. destruct H as (pz & w1 & H1 & H). unfold mlift in H1. injection H1 as H1 Hw1. subst w1.
      destruct (Z.ltb_spec pz (Z.of_nat m + 1)); [discriminate|].
      destruct (Z.ltb_spec (Z.of_nat M) pz); [discriminate|]. cbn [orb] in H.
      apply mbind_ok in H. destruct H as (MM & w1 & H2' & H). unfold mlift at 1 in H2'. injection H2' as H2' Hw1. subst w1.
      apply mbind_ok in H. destruct H as (rows & w1 & H3' & H). injection H as H Hw1. subst w1.
      exists pz, MM, rows. repeat split; auto.
      - rewrite <- H. reflexivity.
      - assert (Q := mmap_all _ _ _ (fun _ => True) _ (fun _ _ _ _ _ => I) _ _ _ _ H3'). destruct Q as [Q _].
        now rewrite seq_length in Q.
    Qed.

    Lemma ll_affine : forall X f p weights M m (w : W) df w' a b, shape X = [M; m] -> shape f = [M; 1%nat] ->
      weights_ok weights M ->
      (forall i, (i < M)%nat -> f.[i, 0%nat] = a + sumf m (fun j => b j * X.[i, j])) ->
      (forall q, (m < q <= M)%nat -> (exists z, p = Some (IsA z) /\ Z.to_nat z = q) \/ (p = None /\ q = Nat.min (17 * m / 10) M) ->
                 general_position X M m q) ->
      local_linear_gradients argsort lstsq X f p weights w = (Ok df, w') ->
      exists MM, shape df = [MM; m] /\ forall i j, (i < MM)%nat -> (j < m)%nat -> df.[i, j] = b j.
    Proof.
      intros X f p weights M m w df w' a b HX Hf Hw Haff HG H.
      destruct (ll_inv X f p weights M m w df w' HX H) as (pz & MM & rows & E1 & E2 & E3 & E4 & E5 & E6 & E7 & E8).
      exists MM. split; auto. intros i j Hi Hj. rewrite E7, at_mk2.
      set (q := Z.to_nat pz) in *.
      assert (Hq : (m < q <= M)%nat) by (unfold q; lia).
      assert (HGq : general_position X M m q).
      { apply HG; auto. unfold ll_p in E1. destruct p as [[z|]|].
        - left. exists z. injection E1 as ->. auto.
        - discriminate.
        - right. split; auto. injection E1 as E1. unfold q. rewrite <- E1. apply Nat2Z.id. }
      assert (F : Forall (fun u => forall j, (j < m)%nat -> u.[S j, 0%nat] = b j) rows).
      { eapply mmap_all; [|exact E8]. intros x w0 u w0' Hu. apply mbind_ok in Hu. destruct Hu as (ii & w2 & D & Hu).
        apply draw_randint_range in D. unfold mlift in Hu. injection Hu as Hu _.
        destruct (weights_pos weights M ii Hw D) as [WP _].
        intros j0 Hj0. apply (ll_fit_affine X f _ M m q ii u a b HX Hf WP ltac:(lia) Haff HGq Hu j0 Hj0). }
      rewrite Forall_forall in F. apply F; auto. apply nth_In. lia.
    Qed.

    (** With enough distinct neighbours around every sample the call returns. *)
    Lemma ll_returns : forall X f p weights M m z (w : W), shape X = [M; m] -> shape f = [M; 1%nat] ->
      (0 < m)%nat -> p = Some (IsA z) -> (Z.of_nat m + 1 <= z)%Z ->
      weights_ok weights M -> lstsq_total lstsq ->
      (forall ii, (ii < M)%nat -> (Z.to_nat z <= List.length (filter (fun i => neq0b (sqdist X i ii)) (seq 0 M)))%nat) ->
      (m < M)%nat -> (z <= Z.of_nat M)%Z ->
      exists df w', local_linear_gradients argsort lstsq X f p weights w = (Ok df, w').
    Proof.
      intros X f p weights M m z w HX Hf Hm -> Hz Hw HT HN HM HzM. unfold local_linear_gradients.
      unfold mlift at 1. rewrite (process_inputs_eq _ X M m HX). unfold mbind at 1.
      destruct (Nat.leb_spec M m); [lia|]. unfold mlift at 1, ll_p. unfold mbind at 1.
      destruct (Z.ltb_spec z (Z.of_nat m + 1)); [lia|]. destruct (Z.ltb_spec (Z.of_nat M) z); [lia|]. cbn [orb].
      assert (EM : exists MM, ll_MM M m = Ok MM) by (unfold ll_MM; destruct m; [lia|eauto]).
      destruct EM as (MM & EM). unfold mlift at 1. rewrite EM. unfold mbind at 1.
      match goal with |- context [mmap ?f (seq 0 MM)] => destruct (mmap_total _ _ _ f) with (l := seq 0 MM) (w := w) as (rows & w' & E) end.
      - intros x w0. unfold mbind, draw_randint. destruct M as [|M']; [lia|].
        pose proof (g_randint_spec G (S M') (rng w0) ltac:(lia)) as Hii.
        destruct (g_randint G (S M') (rng w0)) as [ii s]. simpl in Hii. unfold mlift.
        set (M := S M') in *.
        destruct (weights_pos weights M ii Hw Hii) as [_ WN].
        assert (Hfit : exists u, ll_fit argsort lstsq X f (match weights with None => mk2 M 1 (fun _ _ => / INR M) | Some wt => wt end) (Z.to_nat z) ii = Ok u).
        { unfold ll_fit. set (sel := firstn (Z.to_nat z) (ll_ind argsort X ii)).
          assert (Hlen : List.length sel = Z.to_nat z).
          { unfold sel. apply firstn_length_le. rewrite ll_ind_length, (nrows_shape2 _ _ _ _ HX). now apply HN. }
          assert (Hall : forall Y : nd R, nrows Y = M -> forallb (fun k => Nat.ltb k (nrows Y)) sel = true).
          { intros Y HY. apply forallb_forall. intros k Hk. apply Nat.ltb_lt. rewrite HY.
            apply firstn_In in Hk. apply ll_ind_lt in Hk. now rewrite (nrows_shape2 _ _ _ _ HX) in Hk. }
          unfold take_rows. rewrite (Hall X) by (eapply nrows_shape2; eauto).
          rewrite (Hall f) by (eapply nrows_shape2; eauto). cbn [rbind].
          unfold hstack. cbn [shape mk2 ones2]. rewrite Hlen, Nat.eqb_refl. cbn [rbind].
          rewrite WN. destruct (Nat.ltb_spec ii M); [|lia]. cbn [rbind].
          apply (HT (Z.to_nat z) (1 + m)%nat).
          - cbn [shape amap mk2]. now rewrite (ncols_shape2 _ _ _ _ HX).
          - cbn [shape amap mk2]. now rewrite (ncols_shape2 _ _ _ _ Hf). }
        destruct Hfit as (u & Hu). rewrite Hu. eexists; eexists; reflexivity.
      - unfold mbind at 1. rewrite E. eexists; eexists; reflexivity.
    Qed.

    (** With p = M the call always raises (unless it makes no fit at all). *)
    Lemma ll_p_eq_M_raises : forall X f p weights M m MM (w : W), shape X = [M; m] ->
      ll_p p M m = Ok (Z.of_nat M) -> ll_MM M m = Ok (S MM) ->
      exists e w', local_linear_gradients argsort lstsq X f p weights w = (Err e, w').
    Proof.
      intros X f p weights M m MM w HX HP HM.
      destruct (local_linear_gradients argsort lstsq X f p weights w) as [[df|e] w'] eqn:E; [|eauto].
      exfalso. destruct (ll_inv X f p weights M m w df w' HX E) as (pz & MM' & rows & E1 & E2 & E3 & E4 & E5 & E6 & E7 & E8).
      rewrite HP in E1. injection E1 as <-. rewrite HM in E4. injection E4 as <-.
      simpl seq in E8. simpl mmap in E8. apply mbind_ok in E8. destruct E8 as (u & w1 & Hu & _).
      apply mbind_ok in Hu. destruct Hu as (ii & w2 & D & Hu). apply draw_randint_range in D.
      unfold mlift in Hu. injection Hu as Hu _. unfold ll_fit in Hu.
      apply rbind_ok in Hu. destruct Hu as (Xs & H1 & Hu).
      unfold take_rows in H1. destruct (forallb _ _); [|discriminate]. injection H1 as H1.
      apply rbind_ok in Hu. destruct Hu as (A0 & H2 & Hu).
      unfold hstack in H2. rewrite <- H1 in H2. cbn [ones2 mk2 shape] in H2.
      destruct (Nat.eqb_spec (Z.to_nat (Z.of_nat M)) (List.length (firstn (Z.to_nat (Z.of_nat M)) (ll_ind argsort X ii)))) as [EQ|]; [|discriminate].
      rewrite Nat2Z.id in EQ. rewrite firstn_length in EQ.
      pose proof (ll_ind_short X ii) as Q. rewrite (nrows_shape2 _ _ _ _ HX) in Q. specialize (Q D). lia.
    Qed.
    (** every row of a successful call is one successful fit around some centre *)
    Lemma ll_rows : forall X f p weights M m (w : W) df w', shape X = [M; m] ->
      local_linear_gradients argsort lstsq X f p weights w = (Ok df, w') ->
      exists pz MM, ll_p p M m = Ok pz /\ (Z.of_nat m + 1 <= pz <= Z.of_nat M)%Z /\ ll_MM M m = Ok MM /\ shape df = [MM; m] /\
        forall i, (i < MM)%nat -> exists c u, (c < M)%nat /\
          ll_fit argsort lstsq X f (match weights with None => mk2 M 1 (fun _ _ => / INR M) | Some wt => wt end) (Z.to_nat pz) c = Ok u /\
          forall j, (j < m)%nat -> df.[i, j] = u.[S j, 0%nat].
    Proof.
      intros X f p weights M m w df w' HX H.
      destruct (ll_inv X f p weights M m w df w' HX H) as (pz & MM & rows & E1 & E2 & E3 & E4 & E5 & E6 & E7 & E8).
      exists pz, MM. repeat split; auto; try lia. intros i Hi.
      assert (F : Forall (fun u => exists c, (c < M)%nat /\ ll_fit argsort lstsq X f (match weights with None => mk2 M 1 (fun _ _ => / INR M) | Some wt => wt end) (Z.to_nat pz) c = Ok u) rows).
      { eapply mmap_all; [|exact E8]. intros x w0 u w0' Hu. apply mbind_ok in Hu. destruct Hu as (ii & w2 & D & Hu).
        apply draw_randint_range in D. unfold mlift in Hu. injection Hu as Hu _. eauto. }
      rewrite Forall_forall in F. destruct (F (nth i rows (zeros2 (S m) 1))) as (c & Hc & Hfit); [apply nth_In; lia|].
      exists c, (nth i rows (zeros2 (S m) 1)). repeat split; auto. intros j Hj. now rewrite E7, at_mk2.
    Qed.
  End World.
End LL.

(** ** which samples are used when all samples are distinct *)
Definition distinct_rows (X : nd R) (M : nat) : Prop :=
  forall i j, (i < M)%nat -> (j < M)%nat -> i <> j -> sqdist X i j <> 0.

Lemma mask_select_skip : forall A (l : list A) c, (c < List.length l)%nat ->
  mask_select l (map (fun i => negb (Nat.eqb i c)) (seq 0 (List.length l))) = firstn c l ++ skipn (S c) l.
Proof.
  intros A l c H.
  assert (G : forall l s c, (s <= c)%nat -> (c < s + List.length l)%nat ->
     mask_select l (map (fun i => negb (Nat.eqb i c)) (seq s (List.length l))) = firstn (c - s) l ++ skipn (S (c - s)) (l : list A)).
  { clear. assert (Tail : forall (l : list A) s c, (c < s)%nat -> mask_select l (map (fun i => negb (Nat.eqb i c)) (seq s (List.length l))) = l).
    { induction l as [|x l IH]; intros s c H; auto. unfold mask_select in *. simpl. destruct (Nat.eqb_spec s c); [lia|]. simpl.
      f_equal. apply IH. lia. }
    induction l as [|x l IH]; intros s c H1 H2; simpl in H2; [lia|].
    unfold mask_select. simpl. destruct (Nat.eqb_spec s c) as [->|N]; simpl.
    - rewrite Nat.sub_diag. simpl. apply (Tail l (S c) c). lia.
    - assert (E : (c - s)%nat = S (c - S s)) by lia. rewrite E. simpl. f_equal. apply (IH (S s) c); lia. }
  rewrite G by lia. now rewrite Nat.sub_0_r.
Qed.

(** an ordering of the samples by distance from [c] *)
Definition by_distance (X : nd R) (M c : nat) (s : list nat) : Prop :=
  Permutation s (seq 0 M) /\
  forall i j, (i < j)%nat -> (j < M)%nat -> sqdist X (nth i s 0%nat) c <= sqdist X (nth j s 0%nat) c.

Lemma ll_ind_distinct : forall argsort X M m c, argsort_contract argsort -> shape X = [M; m] -> (c < M)%nat ->
  distinct_rows X M ->
  exists s, by_distance X M c s /\ ll_ind argsort X c = firstn c s ++ skipn (S c) s.
Proof.
  intros argsort X M m c HA HX Hc HD. exists (argsort (ll_D2 X c)).
  assert (LD : List.length (ll_D2 X c) = M) by (rewrite ll_D2_length; eapply nrows_shape2; eauto).
  assert (LS : List.length (argsort (ll_D2 X c)) = M) by (now rewrite argsort_length).
  assert (Hn : forall i, (i < M)%nat -> nth i (ll_D2 X c) 0 = sqdist X i c).
  { intros i Hi. unfold ll_D2. rewrite (nrows_shape2 _ _ _ _ HX). rewrite (nth_map_seq (fun i => sqdist X i c)) by auto. reflexivity. }
  split.
  - destruct (HA (ll_D2 X c)) as [P Q]. rewrite LD in P, Q. split; auto. intros i j Hi Hj.
    specialize (Q i j Hi Hj). rewrite !Hn in Q; auto; rewrite <- LD; apply argsort_nth_lt; auto; lia.
  - unfold ll_ind. rewrite <- mask_select_skip by lia. f_equal. rewrite LS. unfold ll_D2. rewrite map_map, (nrows_shape2 _ _ _ _ HX).
    apply map_ext_in. intros i Hi. apply in_seq in Hi. unfold neq0b. destruct (Nat.eqb_spec i c) as [->|N]; simpl.
    + rewrite sqdist_self. destruct (Req_EM_T 0 0); [auto|lra].
    + destruct (Req_EM_T (sqdist X i c) 0) as [E|]; auto. exfalso. apply (HD i c); auto; lia.
Qed.

(** the documented neighbourhood: p samples other than the centre, none of the
    samples left out being nearer *)
Definition nearest_others (X : nd R) (M p c : nat) (l : list nat) : Prop :=
  NoDup l /\ List.length l = p /\ (forall k, In k l -> (k < M)%nat /\ k <> c) /\
  forall k n, In k l -> (n < M)%nat -> n <> c -> ~ In n l -> sqdist X k c <= sqdist X n c.

Lemma sqdist_nonneg : forall X i j, 0 <= sqdist X i j.
Proof. intros. apply sumf_nonneg. intros. apply Rle_0_sqr. Qed.

Lemma by_distance_head : forall X M c s, by_distance X M c s -> distinct_rows X M -> (c < M)%nat -> nth 0 s 0%nat = c.
Proof.
  intros X M c s [P Q] HD Hc.
  assert (L : List.length s = M) by (rewrite (Permutation_length P), seq_length; auto).
  assert (Hin : In c s) by (apply (Permutation_in _ (Permutation_sym P)), in_seq; lia).
  destruct (In_nth _ _ 0%nat Hin) as (k & Hk & E). destruct k as [|k]; auto.
  specialize (Q 0%nat (S k) ltac:(lia) ltac:(lia)). rewrite E, sqdist_self in Q.
  destruct (Nat.eq_dec (nth 0 s 0%nat) c) as [|N]; auto. exfalso.
  assert (H0 : (nth 0 s 0%nat < M)%nat).
  { assert (In (nth 0 s 0%nat) s) by (apply nth_In; lia). apply (Permutation_in _ P), in_seq in H. lia. }
  apply (HD (nth 0 s 0%nat) c); auto. pose proof (sqdist_nonneg X (nth 0 s 0%nat) c). lra.
Qed.

Lemma sorted_tail_nearest : forall X M p c s, by_distance X M c s -> distinct_rows X M -> (c < M)%nat -> (p < M)%nat ->
  nearest_others X M p c (firstn p (skipn 1 s)).
Proof.
  intros X M p c s HB HD Hc Hp. pose proof (by_distance_head X M c s HB HD Hc) as Hh. destruct HB as [P Q].
  assert (L : List.length s = M) by (rewrite (Permutation_length P), seq_length; auto).
  assert (ND : NoDup s) by (apply (Permutation_NoDup (Permutation_sym P)), seq_NoDup).
  destruct s as [|x s]; [simpl in L; lia|]. simpl in Hh. subst x. cbn [skipn]. simpl in L.
  inversion ND; subst.
  assert (Hin : forall k, In k s -> (k < S (List.length s))%nat).
  { intros k Hk. assert (In k (c :: s)) by (right; auto). apply (Permutation_in _ P), in_seq in H. lia. }
  split; [|split; [|split]].
  - now apply firstn_NoDup.
  - apply firstn_length_le. lia.
  - intros k Hk. apply firstn_In in Hk. split; auto. intros ->. contradiction.
  - intros k n Hk Hn Hnc Hnot.
    assert (Hns : In n (c :: s)) by (apply (Permutation_in _ (Permutation_sym P)), in_seq; lia).
    destruct Hns as [|Hns]; [congruence|].
    assert (Hsplit : In n (skipn p s)).
    { rewrite <- (firstn_skipn p s) in Hns. apply in_app_or in Hns. tauto. }
    destruct (In_nth _ _ 0%nat Hk) as (a & Ha & <-). destruct (In_nth _ _ 0%nat Hsplit) as (b & Hb & <-).
    rewrite firstn_length_le in Ha by lia. rewrite skipn_length in Hb.
    assert (E1 : nth a (firstn p s) 0%nat = nth (S a) (c :: s) 0%nat).
    { simpl. rewrite <- (firstn_skipn p s) at 2. rewrite app_nth1; auto. rewrite firstn_length_le; lia. }
    assert (E2 : nth b (skipn p s) 0%nat = nth (S (p + b)) (c :: s) 0%nat).
    { simpl. rewrite <- (firstn_skipn p s) at 2. rewrite app_nth2; rewrite firstn_length_le; try lia.
      f_equal. lia. }
    rewrite E1, E2. apply Q; lia.
Qed.

(** ** number of rows *)
Lemma ln2_half : / 2 <= ln 2.
Proof.
  assert (ln 3 >= 1).
  { rewrite <- (ln_exp 1). destruct exp_le_3 as [H|H]; [left|rewrite H; right; reflexivity]. apply ln_increasing; auto. apply exp_pos. }
  assert (ln 4 = 2 * ln 2). { replace 4 with (2 * 2) by ring. rewrite ln_mult by lra. ring. }
  assert (ln 3 < ln 4) by (apply ln_increasing; lra). lra.
Qed.

Lemma ceilZ_spec : forall x, IZR (ceilZ x) - 1 < x <= IZR (ceilZ x).
Proof.
  intros x. unfold ceilZ. destruct (archimed (- x)) as [H1 H2]. rewrite opp_IZR, minus_IZR. lra.
Qed.

Lemma ll_MM_pos : forall M m, (2 <= m)%nat -> (2 <= M)%nat -> exists MM, ll_MM M m = Ok (S MM).
Proof.
  intros M m Hm HM. unfold ll_MM. destruct m as [|m]; [lia|].
  set (c := ceilZ (10 * INR (S m) * ln (INR (S m)))).
  assert (Hc : (0 < c)%Z).
  { apply lt_IZR. destruct (ceilZ_spec (10 * INR (S m) * ln (INR (S m)))) as [_ H]. fold c in H.
    apply Rlt_le_trans with (2 := H).
    assert (H2 : 2 <= INR (S m)) by (apply (le_INR 2); lia).
    assert (ln 2 <= ln (INR (S m))) by (destruct H2 as [H2|H2]; [left; apply ln_increasing; lra|rewrite <- H2; lra]).
    pose proof ln2_half. apply Rmult_lt_0_compat; lra. }
  exists (Nat.min (Z.to_nat c) (M - 1) - 1)%nat. f_equal. lia.
Qed.

Lemma ll_raises_bad : forall argsort lstsq (G : gen) (U : Type) X f p weights M m (w : world G U (nd R)), shape X = [M; m] ->
  ((M <= m)%nat -> exists e, local_linear_gradients argsort lstsq X f p weights w = (Err e, w)) /\
  (p = Some NotA -> exists e, local_linear_gradients argsort lstsq X f p weights w = (Err e, w)) /\
  (forall z, p = Some (IsA z) -> (z < Z.of_nat m + 1 \/ Z.of_nat M < z)%Z ->
    exists e, local_linear_gradients argsort lstsq X f p weights w = (Err e, w)).
Proof.
  intros argsort lstsq G U X f p weights M m w HX. unfold local_linear_gradients.
  split; [|split].
  - intros H. unfold mlift at 1. rewrite (process_inputs_eq _ X M m HX). unfold mbind at 1.
    destruct (Nat.leb_spec M m); [|lia]. eexists; reflexivity.
  - intros ->. unfold mlift at 1. rewrite (process_inputs_eq _ X M m HX). unfold mbind at 1.
    destruct (Nat.leb_spec M m); eexists; reflexivity.
  - intros z -> H. unfold mlift at 1. rewrite (process_inputs_eq _ X M m HX). unfold mbind at 1.
    destruct (Nat.leb_spec M m); [eexists; reflexivity|]. unfold mlift at 1, ll_p. unfold mbind at 1.
    destruct (Z.ltb_spec z (Z.of_nat m + 1)); [eexists; reflexivity|].
    destruct (Z.ltb_spec (Z.of_nat M) z); [eexists; reflexivity|]. lia.
Qed.
