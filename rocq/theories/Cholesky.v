(** The Cholesky factor: uniqueness, and a reference implementation showing that the
    contract of numpy.linalg.cholesky can be met. *)
From Coq Require Import Reals ClassicalDedekindReals Lra Lia List Arith Bool Classical.
From Verif Require Import Prelude Py NumArr LinAlg M_Misc P_Misc.
Import ListNotations.
Open Scope R_scope.

Definition posdef (n : nat) (K : nat -> nat -> R) : Prop :=
  forall x, (exists i, (i < n)%nat /\ x i <> 0) -> 0 < sumf n (fun i => sumf n (fun j => x i * x j * K i j)).

(** what numpy.linalg.cholesky does: factor a symmetric positive definite matrix, raise
    LinAlgError on any other symmetric one *)
Definition cholesky_contract (cholesky : nd R -> res (nd R)) : Prop :=
  forall n K, shape K = [n; n] -> (forall i j, (i < n)%nat -> (j < n)%nat -> K.[i, j] = K.[j, i]) ->
  (posdef n (fun i j => K.[i, j]) -> exists L, cholesky K = Ok L /\ chol_factor n K L) /\
  (~ posdef n (fun i j => K.[i, j]) -> cholesky K = Err LinAlgError).

Lemma chol_unique : forall n K L L', chol_factor n K L -> chol_factor n K L' -> forall i j, (i < n)%nat -> (j < n)%nat -> L.[i, j] = L'.[i, j].
Proof.
  intros n K L L' (_ & T & D & E) (_ & T' & D' & E').
  assert (TR : forall (Z : nd R), (forall i j, (i < j)%nat -> (j < n)%nat -> Z.[i, j] = 0) -> forall i j, (j < n)%nat -> sumf n (fun k => Z.[i, k] * Z.[j, k]) = sumf j (fun k => Z.[i, k] * Z.[j, k]) + Z.[i, j] * Z.[j, j]).
  { intros Z TZ i j Hj. replace n with (S j + (n - S j))%nat at 1 by lia. rewrite sumf_split. cbn [sumf]. rewrite (sumf_zero (n - S j)); [ring|].
    intros k Hk. rewrite (TZ j (S j + k)%nat) by lia. ring. }
  intros i j. revert i. induction j as [j IH] using lt_wf_ind. intros i Hi Hj.
  assert (DJ : L.[j, j] = L'.[j, j]).
  { assert (A := E j j Hj Hj). assert (A' := E' j j Hj Hj). rewrite (TR L T) in A by auto. rewrite (TR L' T') in A' by auto.
    rewrite (sumf_ext j _ (fun k => L'.[j, k] * L'.[j, k])) in A by (intros k Hk; rewrite (IH k Hk j) by lia; reflexivity).
    assert (P := D j Hj). assert (P' := D' j Hj). nra. }
  assert (A := E i j Hi Hj). assert (A' := E' i j Hi Hj). rewrite (TR L T) in A by auto. rewrite (TR L' T') in A' by auto.
  rewrite (sumf_ext j _ (fun k => L'.[i, k] * L'.[j, k])) in A by (intros k Hk; rewrite (IH k Hk i), (IH k Hk j) by lia; reflexivity).
  rewrite DJ in A. assert (P' := D' j Hj). apply Rmult_eq_reg_r with (L'.[j, j]); lra.
Qed.

(** forward substitution: the first n entries of the solution of L y = k *)
Fixpoint fwd (L : nat -> nat -> R) (k : nat -> R) (n : nat) : nat -> R :=
  match n with
  | O => fun _ => 0
  | S n' => let y := fwd L k n' in fun j => if Nat.eqb j n' then (k n' - sumf n' (fun l => L n' l * y l)) / L n' n' else y j
  end.
Lemma fwd_spec : forall L k n, (forall i, (i < n)%nat -> L i i <> 0) -> forall i, (i < n)%nat -> sumf i (fun l => L i l * fwd L k n l) + L i i * fwd L k n i = k i.
Proof.
  intros L k n. induction n as [|n IH]; intros HD i Hi; [lia|]. cbn [fwd]. cbv zeta.
  rewrite (sumf_ext i _ (fun l => L i l * fwd L k n l)) by (intros l Hl; destruct (Nat.eqb_spec l n); [lia|reflexivity]).
  destruct (Nat.eqb_spec i n) as [->|].
  - field. apply HD. lia.
  - apply IH; [intros; apply HD; lia|lia].
Qed.
(** the factor of the leading n-by-n block, row by row *)
Fixpoint chol (K : nat -> nat -> R) (n : nat) : nat -> nat -> R :=
  match n with
  | O => fun _ _ => 0
  | S n' => let L := chol K n' in let y := fwd L (K n') n' in
            fun i j => if Nat.eqb i n' then (if Nat.ltb j n' then y j else if Nat.eqb j n' then sqrt (K n' n' - sumf n' (fun l => y l * y l)) else 0)
                       else L i j
  end.

Lemma posdef_le : forall K n, posdef (S n) K -> posdef n K.
Proof.
  intros K n H x (i0 & Hi0 & Hx). assert (Q := H (fun i => if Nat.ltb i n then x i else 0)).
  assert (E : sumf (S n) (fun i => sumf (S n) (fun j => (if Nat.ltb i n then x i else 0) * (if Nat.ltb j n then x j else 0) * K i j)) = sumf n (fun i => sumf n (fun j => x i * x j * K i j))).
  { assert (Nn : Nat.ltb n n = false) by (apply Nat.ltb_ge; lia). cbn [sumf]. rewrite Nn.
    rewrite (sumf_zero n (fun j => 0 * _ * K n j)) by (intros; ring).
    rewrite (sumf_ext n _ (fun i => sumf n (fun j => x i * x j * K i j))); [ring|].
    intros i Hi. rewrite (proj2 (Nat.ltb_lt i n) Hi). rewrite (sumf_ext n _ (fun j => x i * x j * K i j)); [ring|]. intros j Hj. now rewrite (proj2 (Nat.ltb_lt j n) Hj). }
  rewrite <- E. apply Q. exists i0. split; [lia|]. now rewrite (proj2 (Nat.ltb_lt i0 n) Hi0).
Qed.

Lemma chol_spec : forall K n, (forall i j, (i < n)%nat -> (j < n)%nat -> K i j = K j i) -> posdef n K ->
  (forall i j, (i < j)%nat -> chol K n i j = 0) /\ (forall i, (i < n)%nat -> 0 < chol K n i i) /\
  (forall i j, (i < n)%nat -> (n <= j)%nat -> chol K n i j = 0) /\
  (forall i j, (i < n)%nat -> (j < n)%nat -> sumf n (fun k => chol K n i k * chol K n j k) = K i j).
Proof.
  intros K n. induction n as [|n IH]; intros HS HP.
  { repeat split; intros; try lia; reflexivity. }
  destruct IH as (T & D & Z & E); [intros; apply HS; lia|now apply posdef_le|].
  set (L := chol K n) in *. set (y := fwd L (K n) n).
  assert (Y : forall i, (i < n)%nat -> sumf n (fun l => L i l * y l) = K n i).
  { intros i Hi. rewrite <- (fwd_spec L (K n) n) by (auto; intros a Ha; specialize (D a Ha); lra). fold y.
    replace n with (S i + (n - S i))%nat at 1 by lia. rewrite sumf_split. cbn [sumf]. rewrite (sumf_zero (n - S i)); [ring|]. intros k Hk. rewrite T by lia. ring. }
  (* the Schur complement is positive *)
  assert (HL : chol_factor n (mk2 n n K) (mk2 n n L)).
  { split; [reflexivity|]. split; [intros; apply T; auto|]. split; [intros; now apply D|]. intros i j Hi Hj. exact (E i j Hi Hj). }
  assert (exists u, forall l, (l < n)%nat -> sumf n (fun i => L i l * u i) = y l) as (u & HU).
  { (* back substitution, as forward substitution on the reversed transpose *)
    set (L2 := fun a b => L (n - 1 - b)%nat (n - 1 - a)%nat). set (v := fwd L2 (fun a => y (n - 1 - a)%nat) n).
    exists (fun i => v (n - 1 - i)%nat). intros l Hl.
    assert (F := fwd_spec L2 (fun a => y (n - 1 - a)%nat) n ltac:(intros a Ha; unfold L2; assert (Q := D (n - 1 - a)%nat ltac:(lia)); lra) (n - 1 - l)%nat ltac:(lia)). fold v in F. cbv beta in F.
    assert (El : (n - 1 - (n - 1 - l) = l)%nat) by lia. rewrite El in F. rewrite <- F. clear F.
    assert (SR : forall g : nat -> R, sumf n g = sumf n (fun a => g (n - 1 - a)%nat)).
    { intros g. rewrite (sumf_rev n g). apply sumf_ext. intros a Ha. try (f_equal; lia). }
    rewrite SR. rewrite (sumf_ext n _ (fun a => L (n - 1 - a)%nat l * v a)) by (intros a Ha; do 2 f_equal; lia).
    replace n with (S (n - 1 - l) + l)%nat at 1 by lia. rewrite sumf_split. cbn [sumf]. rewrite (sumf_zero l).
    - unfold L2. rewrite Rplus_0_r. f_equal; [|f_equal; f_equal; lia]. apply sumf_ext. intros a Ha. f_equal. f_equal. lia.
    - intros k Hk. rewrite T by lia. ring. }
  assert (SC : 0 < K n n - sumf n (fun l => y l * y l)).
  { assert (Q := HP (fun i => if Nat.ltb i n then - u i else 1) ltac:(exists n; split; [lia|]; rewrite (proj2 (Nat.ltb_ge n n)) by lia; lra)).
    assert (Nn : Nat.ltb n n = false) by (apply Nat.ltb_ge; lia). cbn [sumf] in Q. rewrite Nn in Q.
    rewrite (sumf_ext n _ (fun i => sumf n (fun j => u i * u j * K i j) - u i * K i n)) in Q.
    2: { intros i Hi. rewrite (proj2 (Nat.ltb_lt i n) Hi). rewrite (sumf_ext n _ (fun j => u i * u j * K i j)); [ring|]. intros j Hj. rewrite (proj2 (Nat.ltb_lt j n) Hj). ring. }
    rewrite (sumf_ext n (fun j => 1 * _ * K n j) (fun j => - (u j * K n j))) in Q by (intros j Hj; rewrite (proj2 (Nat.ltb_lt j n) Hj); ring).
    rewrite sumf_minus, sumf_opp in Q. rewrite (sumf_ext n (fun i => u i * K i n) (fun j => u j * K n j)) in Q by (intros i Hi; rewrite (HS i n) by lia; reflexivity).
    assert (A1 : sumf n (fun j => u j * K n j) = sumf n (fun l => y l * y l)).
    { rewrite (sumf_ext n _ (fun j => sumf n (fun l => u j * (L j l * y l)))) by (intros j Hj; rewrite <- Y, sumf_scal_l by auto; reflexivity).
      rewrite sumf_swap. apply sumf_ext. intros l Hl. rewrite (sumf_ext n _ (fun j => L j l * u j * y l)) by (intros; ring). rewrite sumf_scal_r, HU by auto. reflexivity. }
    assert (A2 : sumf n (fun i => sumf n (fun j => u i * u j * K i j)) = sumf n (fun l => y l * y l)).
    { rewrite (sumf_ext n _ (fun i => sumf n (fun l => (L i l * u i) * y l))).
      - rewrite sumf_swap. apply sumf_ext. intros l Hl. rewrite sumf_scal_r, HU by auto. reflexivity.
      - intros i Hi. rewrite (sumf_ext n _ (fun j => sumf n (fun l => (L i l * u i) * (L j l * u j)))).
        + rewrite sumf_swap. apply sumf_ext. intros l Hl. rewrite sumf_scal_l, HU by auto. reflexivity.
        + intros j Hj. rewrite <- E by auto. rewrite <- sumf_scal_l. apply sumf_ext. intros; ring. }
    rewrite A1, A2 in Q. lra. }
  assert (V : forall i j, chol K (S n) i j = if Nat.eqb i n then (if Nat.ltb j n then y j else if Nat.eqb j n then sqrt (K n n - sumf n (fun l => y l * y l)) else 0) else L i j) by (intros; reflexivity).
  assert (Rn : forall i k, (i < n)%nat -> chol K (S n) i k = L i k) by (intros i k Hi; rewrite V; destruct (Nat.eqb_spec i n); [lia|reflexivity]).
  assert (Ry : forall k, (k < n)%nat -> chol K (S n) n k = y k) by (intros k Hk; rewrite V, Nat.eqb_refl, (proj2 (Nat.ltb_lt k n) Hk); reflexivity).
  assert (Rs : chol K (S n) n n = sqrt (K n n - sumf n (fun l => y l * y l))) by (rewrite V, Nat.eqb_refl, (proj2 (Nat.ltb_ge n n)) by lia; reflexivity).
  split; [|split; [|split]].
  - intros i j Hij. rewrite V. destruct (Nat.eqb_spec i n) as [->|]; [|now apply T]. destruct (Nat.ltb_spec j n); [lia|]. destruct (Nat.eqb_spec j n); [lia|reflexivity].
  - intros i Hi. destruct (Nat.eq_dec i n) as [->|]; [rewrite Rs; now apply sqrt_lt_R0|]. rewrite Rn by lia. apply D. lia.
  - intros i j Hi Hj. rewrite V. destruct (Nat.eqb_spec i n) as [->|]; [|apply Z; lia]. destruct (Nat.ltb_spec j n); [lia|]. destruct (Nat.eqb_spec j n); [lia|reflexivity].
  - assert (CR : forall i, (i < n)%nat -> sumf (S n) (fun k => chol K (S n) i k * chol K (S n) n k) = K i n).
    { intros i Hi. cbn [sumf]. rewrite (Rn i n Hi), (Z i n Hi) by lia. rewrite (sumf_ext n _ (fun l => L i l * y l)) by (intros l Hl; rewrite Rn, Ry by auto; reflexivity).
      rewrite Y by auto. rewrite (HS n i) by lia. ring. }
    intros i j Hi Hj. destruct (Nat.eq_dec i n) as [Ei|Ni], (Nat.eq_dec j n) as [Ej|Nj].
    + rewrite Ei, Ej. cbn [sumf]. rewrite Rs, sqrt_sqrt by lra. rewrite (sumf_ext n _ (fun l => y l * y l)) by (intros l Hl; rewrite Ry by auto; reflexivity). ring.
    + rewrite Ei, (HS n j) by lia. rewrite <- (CR j) by lia. apply sumf_ext. intros; ring.
    + rewrite Ej. apply CR. lia.
    + rewrite <- E by lia. cbn [sumf]. rewrite (Rn i n), (Z i n) by lia. rewrite (sumf_ext n _ (fun k => L i k * L j k)) by (intros k Hk; rewrite !Rn by lia; reflexivity). ring.
Qed.

Definition cholesky_ref (K : nd R) : res (nd R) :=
  let n := nrows K in if sig_not_dec (posdef n (fun i j => K.[i, j])) then Ok (mk2 n n (chol (fun i j => K.[i, j]) n)) else Err LinAlgError.
Lemma cholesky_ref_contract : cholesky_contract cholesky_ref.
Proof.
  intros n K SK HS. unfold cholesky_ref. rewrite (nrows_shape2 _ _ _ _ SK). cbv zeta. destruct (sig_not_dec _) as [P|P]; split; intros Q.
  - eexists. split; [reflexivity|]. destruct (chol_spec (fun i j => K.[i, j]) n HS Q) as (T & D & _ & E).
    split; [reflexivity|]. split; [intros i j Hij _; now apply T|]. split; [intros i Hi; now apply D|]. intros i j Hi Hj. exact (E i j Hi Hj).
  - exfalso. now apply P.
  - exfalso. now apply P.
  - reflexivity.
Qed.
