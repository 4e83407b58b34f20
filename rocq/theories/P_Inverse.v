(** What a returning inverse returned, and shapes of the designs *)
From Coq Require Import String Reals Lra Lia List Arith ZArith Bool.
From Verif Require Import Prelude Py NumArr M_Misc M_RespSurf M_SimRunners M_Gradients M_Subspaces M_Quadrature M_QP M_Domains M_Designs M_ASRS
  P_Misc P_DomSample P_Domains P_Designs P_Multistart Properties_QP Properties_Domains Properties_Designs.
Import ListNotations.
Open Scope R_scope.

(** the class of the map has an inverse; the bounded one relies on its LP solver *)
Definition invertible (B : backend) (a : avmap) : Prop :=
  av_kind a = MUnbounded \/ av_kind a = MBounded /\ linprog_ok (linprog B) /\ gurobi_ok (gurobi B).

Lemma inverse_returns : forall (G : gen) (U L : Type) (B : backend) a m n Wm W1 W2 Y NY N (w w' : world G U L) X ind,
  frame (d_subs (av_domain a)) m n Wm W1 W2 -> invertible B a -> shape Y = [NY; n] ->
  av_inverse B a Y (IsA N) w = (Ok (X, ind), w') ->
  exists K Z, N = Z.of_nat K /\ inverse_of a m n NY K Y Z X ind.
Proof.
  intros G U L B [k d] m n Wm W1 W2 Y NY N w w' X ind F HI HY H. destruct HI as [E|(E & HL & HG)]; cbn [av_kind av_domain] in E, F; subst k.
  - destruct (Z.lt_ge_cases N 0) as [C|C].
    + destruct (C21_inverse_raises G U L B (AVM MUnbounded d) Y w) as (_ & _ & _ & Q).
      rewrite (Q ltac:(unfold rank; now rewrite HY) m n Wm W1 W2 N F C eq_refl) in H. discriminate.
    + apply Z_of_nat_complete in C. destruct C as (K & ->).
      destruct (C21_unbounded_inverse G U L B d m n Wm W1 W2 Y NY K w F HY) as (X' & ind' & E & Q). rewrite E in H. injection H as <- <- _. eauto.
  - destruct (C22_bounded_inverse_partial G U L B d m n Wm W1 W2 Y NY N w w' X ind F HY HL HG H) as (K & EN & _ & (Z & Q) & _). eauto.
Qed.

Lemma unbounded_cols : forall (G : gen) (U L : Type) (B : backend) a m n Wm W1 W2 Y N (w w' : world G U L) X ind,
  frame (d_subs (av_domain a)) m n Wm W1 W2 -> av_kind a = MUnbounded ->
  av_inverse B a Y (IsA N) w = (Ok (X, ind), w') -> exists NY, shape Y = [NY; n].
Proof.
  intros G U L B a m n Wm W1 W2 Y N w w' X ind F K H. unfold av_inverse, av_inverse_with in H.
  apply mbind_ok in H. destruct H as ([[Y0 NY] c] & w1 & E & H). apply mlift_inv in E. destruct E as [E ->].
  destruct (shape Y) as [|r [|c' [|? ?]]] eqn:SY; try (unfold process_inputs in E; rewrite SY in E; discriminate).
  rewrite (process_inputs_ok _ Y _ _ SY) in E. injection E as <- <- <-.
  apply mbind_ok in H. destruct H as (Zz & w2 & EZ & H). apply mbind_ok in H. destruct H as (Wm' & w3 & E & H). apply mlift_inv in E. destruct E as [E ->].
  rewrite (fr_W _ _ _ _ _ _ F) in E. injection E as <-. apply mlift_inv in H. destruct H as [H _].
  unfold regularize_z in EZ. rewrite K in EZ. unfold regularize_unbounded in EZ.
  apply mbind_ok in EZ. destruct EZ as (W1' & w4 & E & EZ). apply mlift_inv in E. destruct E as [E ->]. rewrite (fr_1 _ _ _ _ _ _ F) in E. injection E as <-.
  apply mbind_ok in EZ. destruct EZ as ([m' n'] & w5 & E & EZ). apply mlift_inv in E. destruct E as [E ->]. unfold shape2 in E. rewrite (fr_s1 _ _ _ _ _ _ F) in E. injection E as <- <-.
  rewrite (proj2 (Nat.leb_le n m) (fr_le _ _ _ _ _ _ F)) in EZ.
  apply mbind_ok in EZ. destruct EZ as (? & w6 & E & EZ). apply mlift_inv in E. destruct E as [_ ->].
  apply mbind_ok in EZ. destruct EZ as (Nn & w7 & E & EZ). apply mlift_inv in E. destruct E as [_ ->].
  unfold normal3 in EZ. apply mbind_ok in EZ. destruct EZ as (l & w8 & _ & EZ). apply mret_inv in EZ. destruct EZ as [-> _].
  unfold rotate_x, shape2 in H. rewrite SY in H. cbn [rbind shape mk3] in H.
  exists r. f_equal. f_equal. assert (Hle := fr_le _ _ _ _ _ _ F).
  destruct (Nat.eq_dec c' n) as [|Ne]; auto. exfalso.
  destruct (reshape [r; c'; 1%nat] Y) as [Y3|e]; [|discriminate]. cbn [rbind] in H.
  destruct (guard (Nat.eqb r (nrows Y)) ValueError) as [u|e]; [|discriminate]. cbn [rbind] in H.
  match type of H with rbind (reshape ?s ?A) _ = _ => destruct (reshape s A) as [T2|e] eqn:ER; [|discriminate] end. cbn [rbind] in H.
  assert (S2 : shape T2 = [(c' + (m - n))%nat; (Nn * r)%nat]) by (apply reshape_inv in ER; apply ER).
  assert (Wt : shape (tr Wm) = [m; m]). { unfold tr. cbn [shape mk2]. now rewrite (ncols_shape2 _ Wm _ _ (fr_sW _ _ _ _ _ _ F)), (nrows_shape2 _ Wm _ _ (fr_sW _ _ _ _ _ _ F)). }
  assert (Tt : shape (tr T2) = [(Nn * r)%nat; (c' + (m - n))%nat]). { unfold tr. cbn [shape mk2]. now rewrite (ncols_shape2 _ T2 _ _ S2), (nrows_shape2 _ T2 _ _ S2). }
  unfold npdot in H. rewrite Tt, Wt in H. unfold mdot in H. rewrite Tt, Wt in H.
  destruct (Nat.eqb_spec (c' + (m - n)) m) as [Q|Q]; [lia|]. cbn [rbind guard] in H. discriminate.
Qed.

Lemma interval_shape : forall a b N D, interval_design a b N = Ok D -> exists K, shape D = [K; 1%nat].
Proof.
  intros a b N D H. unfold interval_design, linspace in H. destruct (dimZ (N + 2)) as [K|e]; [|discriminate]. cbn [rbind] in H.
  unfold inner1, atleast_2d in H. cbn [shape mk1] in H. change (String.eqb "col" "row") with false in H. change (String.eqb "col" "col") with true in H. cbv iota in H.
  injection H as <-. eexists. reflexivity.
Qed.

Lemma maximin_shape : forall (G : gen) (U L : Type) B ch vert V n N (w w' : world G U L) D, shape vert = [V; n] ->
  maximin_design B ch vert N w = (Ok D, w') -> w' = w /\ exists K, N = Z.of_nat K /\ shape D = [K; n].
Proof.
  intros G U L B ch vert V n N w w' D SV H. destruct (maximin_early (G := G) (U := U) (L := L) B ch vert N) as [(e & E)|(V' & n' & eqs & k & SV' & EH & ->)].
  { rewrite E in H. discriminate. }
  rewrite SV in SV'. injection SV' as <- <-.
  destruct (maximin_run (G := G) (U := U) (L := L) B ch vert V n eqs k w SV EH) as [(i & e & _ & _ & E)|(_ & o & _ & E)]; rewrite E in H; [discriminate|].
  injection H as H <-. split; auto. exists k. split; auto. destruct o as [v|]; [|discriminate]. destruct (mr_x v); [|discriminate]. apply reshape_inv in H. apply H.
Qed.

(** the domain's vertices, listed in x- and y-space *)
Definition has_vertices (d : avdomain) (m n NV : nat) (vX vY : nd R) : Prop :=
  d_vertX d = Some vX /\ d_vertY d = Some vY /\ shape vX = [NV; m] /\ shape vY = [NV; n].
(** a map and its domain of the same sort *)
Definition matched (B : backend) (a : avmap) (m n NV : nat) (vX vY : nd R) : Prop :=
  (av_kind a = MUnbounded /\ d_kind (av_domain a) = DUnbounded /\ NV = 0%nat) \/
  (av_kind a = MBounded /\ d_kind (av_domain a) = DBounded /\ linprog_ok (linprog B) /\ gurobi_ok (gurobi B) /\ has_vertices (av_domain a) m n NV vX vY).

Lemma design_returns : forall (G : gen) (U : Type) B ch eig argsort a m n Wm W1 W2 NV vX vY N NMC (w w1 : world G U (nd R)) Yd Xd ind,
  frame (d_subs (av_domain a)) m n Wm W1 W2 -> matched B a m n NV vX vY ->
  av_design B ch eig argsort (IsA a) (IsA N) (IsA NMC) w = (Ok (Yd, Xd, ind), w1) ->
  exists NY K Z, NMC = Z.of_nat K /\ shape Yd = [NY; n] /\ inverse_of a m n NY K Yd Z Xd ind.
Proof.
  intros G U B ch eig argsort a m n Wm W1 W2 NV vX vY N NMC w w1 Yd Xd ind F MT H. unfold av_design in H. cbv zeta in H.
  apply mbind_ok in H. destruct H as (W1' & w2 & E & H). apply mlift_inv in E. destruct E as [E ->]. rewrite (fr_1 _ _ _ _ _ _ F) in E. injection E as <-.
  apply mbind_ok in H. destruct H as ([m' n'] & w2 & E & H). apply mlift_inv in E. destruct E as [E ->]. unfold shape2 in E. rewrite (fr_s1 _ _ _ _ _ _ F) in E. injection E as <- <-.
  apply mbind_ok in H. destruct H as (Y & w2 & ED & H). apply mbind_ok in H. destruct H as ([X i] & w3 & EI & H). apply mret_inv in H. destruct H as [H _]. injection H as -> -> ->.
  assert (IV : invertible B a). { unfold invertible. destruct MT as [(-> & _)|(-> & _ & ? & ? & _)]; auto. }
  assert (SY : exists NY, shape Y = [NY; n]).
  { destruct MT as [(MK & _)|(_ & DK & _ & _ & (VX & VY & SX & SY))]; [exact (unbounded_cols _ _ _ _ _ _ _ _ _ _ _ _ _ _ _ _ F MK EI)|].
    rewrite DK in ED. apply mbind_ok in ED. destruct ED as (v & w4 & E & ED). apply mlift_inv in E. destruct E as [E ->]. rewrite VY in E. injection E as <-.
    destruct (Nat.eqb_spec n 1) as [->|_].
    - apply mlift_inv in ED. destruct ED as [ED _]. destruct (get2 vY 0 0) as [ea|e]; [|discriminate]. cbn [rbind] in ED. destruct (get2 vY 1 0) as [eb|e]; [|discriminate].
      exact (interval_shape _ _ _ _ ED).
    - destruct (maximin_shape _ _ _ _ _ _ _ _ _ _ _ _ SY ED) as (_ & K & _ & S). eauto. }
  destruct SY as (NY & SY). destruct (inverse_returns _ _ _ _ _ _ _ _ _ _ _ _ _ _ _ _ _ F IV SY EI) as (K & Z & EN & Q). exists NY, K, Z. auto.
Qed.
