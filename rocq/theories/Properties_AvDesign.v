(** C81: the design on the active variables, response_surfaces.py 231-297 *)
From Coq Require Import String Reals Lra Lia List Arith ZArith Bool.
From Verif Require Import Prelude Py NumArr EighRef Toy M_Misc M_RespSurf M_Gradients M_Subspaces M_QP M_Domains M_Quadrature M_Designs M_ASRS
  GaussRules Tridiag Sorting P_Tensor P_Quadrature P_Misc P_Bootstrap P_SimRunners P_DomSample P_QP P_Domains P_CondExp P_Quiet P_Inverse P_Integrals P_Integrate Properties_Quadrature Properties_QP Properties_Domains Properties_Designs.
Import ListNotations.
Open Scope R_scope.

(** the largest p with p^n <= N *)
Lemma floor_root : forall n, (1 <= n)%nat -> forall N, (1 <= N)%Z -> exists p, (1 <= p)%Z /\ (p ^ Z.of_nat n <= N < (p + 1) ^ Z.of_nat n)%Z.
Proof.
  intros n Hn N HN. rewrite <- (Z2Nat.id N) by lia. assert (H : (1 <= Z.to_nat N)%nat) by lia. revert H. generalize (Z.to_nat N). clear N HN.
  induction n0 as [|k IH]; intros Hk; [lia|]. destruct (Nat.eq_dec k 0) as [->|K0].
  - exists 1%Z. split; [lia|]. rewrite Z.pow_1_l by lia. change (1 + 1)%Z with 2%Z. assert (Q := Z.pow_gt_1 2 (Z.of_nat n) ltac:(lia)). simpl Z.of_nat. lia.
  - destruct (IH ltac:(lia)) as (p & Hp & L & Up). destruct (Z.lt_ge_cases (Z.of_nat (S k)) ((p + 1) ^ Z.of_nat n)) as [C|C].
    + exists p. lia.
    + exists (p + 1)%Z. split; [lia|]. split; [lia|]. assert (Q := Z.pow_lt_mono_l (p + 1) (p + 1 + 1) (Z.of_nat n) ltac:(lia) ltac:(lia)). lia.
Qed.
Lemma prodn_repeat : forall n p, prodn (map Z.to_nat (repeat p n)) = (Z.to_nat p ^ n)%nat.
Proof. induction n; intros p; cbn [repeat map prodn fold_right Nat.pow]; auto; try (f_equal; apply IHn). Qed.

Lemma map_rep : forall n p, map Z.to_nat (repeat p n) = repeat (Z.to_nat p) n.
Proof. induction n; intros p; cbn [repeat map]; auto. now rewrite IHn. Qed.

(** What a design is, whenever av_design returns for N >= 1: NY points in the
    active variables and NMC inputs for each. *)
Theorem C81_design_partial : forall (G : gen) (U : Type) B ch eig argsort a m n Wm W1 W2 NV vX vY N NMC (w w1 : world G U (nd R)) Yd Xd ind,
  frame (d_subs (av_domain a)) m n Wm W1 W2 -> (1 <= n)%nat -> matched B a m n NV vX vY ->
  eig_contract eig -> eig_total eig -> argsort_contract argsort -> (1 <= N)%Z ->
  av_design B ch eig argsort (IsA a) (IsA N) (IsA NMC) w = (Ok (Yd, Xd, ind), w1) ->
  exists NY K, NMC = Z.of_nat K /\ shape Yd = [NY; n] /\ shape Xd = [(NY * K)%nat; m] /\ shape ind = [(NY * K)%nat; 1%nat] /\
    (* row i*K+l of Xd belongs to row i of Yd *)
    (forall i l, (i < NY)%nat -> (l < K)%nat -> ind.[(i * K + l)%nat, 0%nat] = INR i /\
       forall j, (j < n)%nat -> sumf m (fun c => Xd.[(i * K + l)%nat, c] * W1.[c, j]) = Yd.[i, j]) /\
    match d_kind (av_domain a) with
    | DUnbounded => exists p x wt, (p ^ Z.of_nat n <= N < (p + 1) ^ Z.of_nat n)%Z /\ gh1d eig argsort p = Ok (x, wt) /\
        NY = (Z.to_nat p ^ n)%nat /\
        (* one row for every choice of one node per variable *)
        (forall ix, Forall2 lt ix (repeat (Z.to_nat p) n) -> (horner (repeat (Z.to_nat p) n) ix < NY)%nat /\
           forall k, (k < n)%nat -> Yd.[horner (repeat (Z.to_nat p) n) ix, k] = x.[nth k ix 0%nat, 0%nat]) /\
        (forall r, (r < NY)%nat -> exists! ix, Forall2 lt ix (repeat (Z.to_nat p) n) /\ horner (repeat (Z.to_nat p) n) ix = r)
    | DBounded => Z.of_nat NY = N /\
        if Nat.eqb n 1 then forall i, (i < NY)%nat -> Yd.[i, 0%nat] = vY.[0%nat, 0%nat] + INR (S i) * (vY.[1%nat, 0%nat] - vY.[0%nat, 0%nat]) / INR (S NY)
        else maximin_design B ch vY N w = (Ok Yd, w)
    | DBase => False
    end.
Proof.
  intros G U B ch eig argsort a m n Wm W1 W2 NV vX vY N NMC w w1 Yd Xd ind F Hn MT HE HT HA HN H.
  destruct (design_returns _ _ _ _ _ _ _ _ _ _ _ _ _ _ _ _ _ _ _ _ _ _ F MT H) as (NY & K & Zi & EN & SY & (SX & SI & VI & Y' & Z' & EF & FY & _)).
  exists NY, K. split; auto. split; auto. split; [rewrite Nat.mul_comm; exact SX|]. split; [rewrite Nat.mul_comm; exact SI|]. split.
  { intros i l Hi Hl. split; [auto|]. intros j Hj. destruct (C21_forward a m n Wm W1 W2 Xd (K * NY) F SX) as (Y2 & Z2 & EF2 & _ & _ & FY2 & _). rewrite EF in EF2. injection EF2 as <- <-.
    rewrite <- (FY i l j) by auto. rewrite FY2 by (auto; nia). reflexivity. }
  clear Y' Z' EF FY VI SI SX Zi EN.
  unfold av_design in H. cbv zeta in H.
  apply mbind_ok in H. destruct H as (W1' & w2 & E & H). apply mlift_inv in E. destruct E as [E ->]. rewrite (fr_1 _ _ _ _ _ _ F) in E. injection E as <-.
  apply mbind_ok in H. destruct H as ([m' n'] & w2 & E & H). apply mlift_inv in E. destruct E as [E ->]. unfold shape2 in E. rewrite (fr_s1 _ _ _ _ _ _ F) in E. injection E as <- <-.
  apply mbind_ok in H. destruct H as (Y & w2 & ED & H). apply mbind_ok in H. destruct H as ([X i] & w3 & EI & H). apply mret_inv in H. destruct H as [H _]. injection H as -> -> ->.
  destruct MT as [(_ & DK & _)|(_ & DK & _ & _ & (VX & VY & SVX & SVY))]; rewrite DK in *.
  - destruct (floor_root n Hn N HN) as (p & Hp & FL). apply mlift_inv in ED. destruct ED as [ED _]. rewrite (roots_repeat _ _ _ (iroot_floor N n p Hn Hp FL)) in ED. cbn [rbind] in ED.
    destruct (C31_gauss_hermite_tensor eig argsort (repeat p n) HE HT HA ltac:(apply Forall_forall; intros z Hz; apply repeat_spec in Hz; lia)) as (Yp & Yw & EG & SYp & _ & C1 & C2 & _).
    unfold gauss_hermite_design in ED. rewrite EG in ED. cbn [rbind] in ED. injection ED as <-.
    destruct (C29_returns eig argsort p HE HT HA) as (x & wt & E1). exists p, x, wt. rewrite prodn_repeat in *. rewrite repeat_length in *.
    assert (MR : map Z.to_nat (repeat p n) = repeat (Z.to_nat p) n) by apply map_rep. rewrite MR in *.
    rewrite SYp in SY. injection SY as <-. split; [exact FL|]. split; [exact E1|]. split; [reflexivity|]. split; [|exact C2].
    intros ix Hix. destruct (C1 ix Hix) as (A & C & _). split; [exact A|]. intros k Hk. rewrite C by auto. unfold node1. replace (nth k (repeat p n) 0%Z) with p; [now rewrite E1|].
    symmetry. apply (repeat_spec n p). apply nth_In. now rewrite repeat_length.
  - apply mbind_ok in ED. destruct ED as (v & w4 & E & ED). apply mlift_inv in E. destruct E as [E ->]. rewrite VY in E. injection E as <-.
    destruct (Nat.eqb_spec n 1) as [->|_].
    + apply mlift_inv in ED. destruct ED as [ED _]. destruct (get2 vY 0 0) as [ea|e] eqn:G1; [|discriminate]. cbn [rbind] in ED. destruct (get2 vY 1 0) as [eb|e] eqn:G2; [|discriminate]. cbn [rbind] in ED.
      assert (ea = vY.[0%nat, 0%nat] /\ eb = vY.[1%nat, 0%nat]) as [-> ->].
      { unfold get2 in G1, G2. rewrite SVY in G1, G2. destruct (_ && _)%bool in G1; [|discriminate]. destruct (_ && _)%bool in G2; [|discriminate]. split; congruence. }
      unfold interval_design, linspace, dimZ in ED. destruct (Z.ltb_spec (N + 2) 0) as [C|C]; [lia|]. cbn [rbind] in ED.
      unfold inner1, atleast_2d in ED. cbn [shape mk1] in ED. change (String.eqb "col" "row") with false in ED. change (String.eqb "col" "col") with true in ED. cbv iota in ED. injection ED as <-.
      set (K0 := Z.to_nat (N + 2)) in *. assert (HK0 : Z.of_nat K0 = (N + 2)%Z) by (unfold K0; apply Z2Nat.id; lia).
      assert (SN : NY = (K0 - 2)%nat). { unfold size, mk2 in SY. cbn [shape mk1 prodn fold_right] in SY. rewrite Nat.mul_1_r in SY. congruence. }
      split; [lia|]. intros i0 Hi0. unfold mk2, mk1. cbn [at_]. destruct (Nat.eqb_spec K0 1) as [C1|C1]; [lia|].
      replace (K0 - 1)%nat with (S NY) by lia. cbn [nth]. change (match i0 with 0%nat => 1 | S _ => INR i0 + 1 end) with (INR (S i0)). field. apply not_0_INR. lia.
    + destruct (maximin_shape _ _ _ _ _ _ _ _ _ _ _ _ SVY ED) as (-> & K' & -> & S). rewrite SY in S. injection S as ->. split; auto.
Qed.
Print Assumptions C81_design_partial.


(** The docstring promises N points.  On an unbounded domain in n >= 2 variables
    there are floor(N^(1/n))^n: for n = 2 and N = 3, one. *)
Theorem C81_count_refuted : forall (G : gen) (U : Type) B ch eig argsort d m Wm W1 W2 K (w : world G U (nd R)),
  frame (d_subs d) m 2 Wm W1 W2 -> d_kind d = DUnbounded -> eig_contract eig -> eig_total eig -> argsort_contract argsort ->
  exists Yd Xd ind w1, av_design B ch eig argsort (IsA (AVM MUnbounded d)) (IsA 3%Z) (IsA (Z.of_nat K)) w = (Ok (Yd, Xd, ind), w1) /\
    shape Yd = [1%nat; 2%nat] /\ shape Xd = [K; m] /\ Yd.[0%nat, 0%nat] = 0 /\ Yd.[0%nat, 1%nat] = 0.
Proof.
  intros G U B ch eig argsort d m Wm W1 W2 K w F DK HE HT HA.
  destruct (C31_gauss_hermite_tensor eig argsort (repeat 1%Z 2) HE HT HA ltac:(repeat constructor; lia)) as (Yp & Yw & EG & SYp & _ & _).
  cbn in SYp.
  destruct (C21_unbounded_inverse G U (nd R) B d m 2 Wm W1 W2 Yp 1 K w F SYp) as (Xp & ind & EI & _).
  set (w2 := set_rng w _) in EI.
  assert (ED : av_design B ch eig argsort (IsA (AVM MUnbounded d)) (IsA 3%Z) (IsA (Z.of_nat K)) w = (Ok (Yp, Xp, ind), w2)).
  { unfold av_design. cbv zeta. cbn [av_domain]. rewrite (fr_1 _ _ _ _ _ _ F). unfold mbind at 1, mlift at 1. cbn [need]. unfold mbind at 1, mlift at 1. unfold shape2. rewrite (fr_s1 _ _ _ _ _ _ F). rewrite DK.
    rewrite (roots_repeat 3 2 1 (iroot_floor 3 2 1 ltac:(lia) ltac:(lia) ltac:(simpl; lia))). cbn [rbind]. unfold gauss_hermite_design. rewrite EG. cbn [rbind]. unfold mbind at 1, mlift. unfold mbind. rewrite EI. reflexivity. }
  exists Yp, Xp, ind, w2. split; [exact ED|].
  destruct (C81_design_partial G U B ch eig argsort (AVM MUnbounded d) m 2 Wm W1 W2 0 Yp Yp 3 (Z.of_nat K) w w2 Yp Xp ind F ltac:(lia) (or_introl (conj eq_refl (conj DK eq_refl))) HE HT HA ltac:(lia) ED)
    as (NY & K' & EK & SY & SX & _ & _ & Q). apply Nat2Z.inj in EK. subst K'. cbn [av_domain] in Q. rewrite DK in Q.
  destruct Q as (p & x & wt & FL & Ex & EN & VY & _). assert (p = 1%Z) by (cbn in FL; nia). subst p. cbn in EN. subst NY.
  split; [exact SY|]. split; [rewrite Nat.mul_1_l in SX; exact SX|].
  destruct (C29_gauss_hermite_rule eig argsort 1 x wt HE HA ltac:(lia) Ex) as (_ & _ & _ & _ & _ & SYM & _). destruct (SYM 0%nat ltac:(cbn; lia)) as [S0 _]. change (Z.to_nat 1 - 1 - 0)%nat with 0%nat in S0.
  assert (X0 : x.[0%nat, 0%nat] = 0) by lra.
  destruct (VY [0; 0]%nat ltac:(repeat constructor)) as [_ V]. split; [rewrite <- X0; apply (V 0%nat); lia | rewrite <- X0; apply (V 1%nat); lia].
Qed.
Print Assumptions C81_count_refuted.

Definition sub32 : subspaces := Subs None (Some W3) (Some (cols_slice W3 0 2)) (Some (cols_slice W3 2 3)) None None.
Lemma frame32 : frame sub32 3 2 W3 (cols_slice W3 0 2) (cols_slice W3 2 3).
Proof. split; try reflexivity; try lia. apply (fr_o _ _ _ _ _ _ frame3). Qed.
(** three inputs, two active variables *)
Example C81_case : exists Yd Xd ind w1, av_design backend_ref (fun _ => Err ValueError) eigh_ref argsort_ref (IsA (AVM MUnbounded (AVD DUnbounded sub32 3 2 None None None None))) (IsA 3%Z) (IsA (Z.of_nat 5))
    (toy_world (L := nd R) tt) = (Ok (Yd, Xd, ind), w1) /\ shape Yd = [1%nat; 2%nat] /\ shape Xd = [5%nat; 3%nat].
Proof.
  destruct (C81_count_refuted toy_gen unit backend_ref (fun _ => Err ValueError) eigh_ref argsort_ref (AVD DUnbounded sub32 3 2 None None None None) 3 _ _ _ 5 (toy_world (L := nd R) tt) frame32 eq_refl eig_ref_contract eig_ref_total argsort_ref_contract)
    as (Yd & Xd & ind & w1 & E & S1 & S2 & _). exists Yd, Xd, ind, w1. auto.
Qed.
