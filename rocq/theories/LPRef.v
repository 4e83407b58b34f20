(** A reference linear programming solver (Fourier-Motzkin elimination), used
    to show that the contracts assumed of the LP back ends can be met, and that
    a feasible, bounded linear program has an optimum. *)
From Coq Require Import Reals Lra Lia List Arith.
From Verif Require Import Prelude.
Import ListNotations.
Open Scope R_scope.

(** a constraint a.x <= b *)
Definition cstr := ((nat -> R) * R)%type.
Definition csat (n : nat) (x : nat -> R) (c : cstr) : Prop := sumf n (fun j => fst c j * x j) <= snd c.
Definition sat (n : nat) (cs : list cstr) (x : nat -> R) : Prop := forall c, In c cs -> csat n x c.

Definition upd (x : nat -> R) (k : nat) (v : R) : nat -> R := fun j => if Nat.eqb j k then v else x j.
Lemma sumf_upd : forall n (a x : nat -> R) v, sumf n (fun j => a j * upd x n v j) = sumf n (fun j => a j * x j).
Proof. intros. apply sumf_ext. intros i Hi. unfold upd. destruct (Nat.eqb_spec i n); [lia|reflexivity]. Qed.

Definition isneg (k : nat) (c : cstr) : bool := if Rlt_dec (fst c k) 0 then true else false.
Definition ispos (k : nat) (c : cstr) : bool := if Rlt_dec 0 (fst c k) then true else false.
Definition iszero (k : nat) (c : cstr) : bool := if Req_EM_T (fst c k) 0 then true else false.
Definition comb2 (k : nat) (p q : cstr) : cstr :=
  (fun j => fst p j / fst p k - fst q j / fst q k, snd p / fst p k - snd q / fst q k).
(** eliminate variable k *)
Definition elim (k : nat) (cs : list cstr) : list cstr :=
  filter (iszero k) cs ++ flat_map (fun p => map (comb2 k p) (filter (isneg k) cs)) (filter (ispos k) cs).

Lemma in_neg : forall k c cs, In c (filter (isneg k) cs) <-> In c cs /\ fst c k < 0.
Proof. intros. rewrite filter_In. unfold isneg. destruct (Rlt_dec (fst c k) 0); intuition discriminate. Qed.
Lemma in_pos : forall k c cs, In c (filter (ispos k) cs) <-> In c cs /\ 0 < fst c k.
Proof. intros. rewrite filter_In. unfold ispos. destruct (Rlt_dec 0 (fst c k)); intuition discriminate. Qed.
Lemma in_zero : forall k c cs, In c (filter (iszero k) cs) <-> In c cs /\ fst c k = 0.
Proof. intros. rewrite filter_In. unfold iszero. destruct (Req_EM_T (fst c k) 0); intuition discriminate. Qed.

(** the bound a constraint puts on variable k, given the earlier ones *)
Definition bnd (k : nat) (x : nat -> R) (c : cstr) : R := (snd c - sumf k (fun j => fst c j * x j)) / fst c k.
Lemma csat_pos : forall k x c, 0 < fst c k -> (csat (S k) x c <-> x k <= bnd k x c).
Proof.
  intros k x c H. unfold csat, bnd. simpl. set (s := sumf k _). split; intros A.
  - apply (Rmult_le_reg_l (fst c k)); auto. replace (fst c k * ((snd c - s) / fst c k)) with (snd c - s) by (field; lra). lra.
  - apply (Rmult_le_compat_l (fst c k)) in A; [|lra]. replace (fst c k * ((snd c - s) / fst c k)) with (snd c - s) in A by (field; lra). lra.
Qed.
Lemma csat_neg : forall k x c, fst c k < 0 -> (csat (S k) x c <-> bnd k x c <= x k).
Proof.
  intros k x c H. unfold csat, bnd. simpl. set (s := sumf k _). split; intros A.
  - apply (Rmult_le_reg_l (- fst c k)); [lra|]. replace (- fst c k * ((snd c - s) / fst c k)) with (- (snd c - s)) by (field; lra). lra.
  - apply (Rmult_le_compat_l (- fst c k)) in A; [|lra]. replace (- fst c k * ((snd c - s) / fst c k)) with (- (snd c - s)) in A by (field; lra). lra.
Qed.
Lemma csat_zero : forall k x c, fst c k = 0 -> (csat (S k) x c <-> csat k x c).
Proof. intros k x c H. unfold csat. simpl. rewrite H. split; intros; lra. Qed.
Lemma csat_comb : forall k x p q, csat k x (comb2 k p q) <-> bnd k x q <= bnd k x p.
Proof.
  intros k x p q. unfold csat, comb2, bnd. cbn [fst snd].
  rewrite (sumf_ext k _ (fun j => fst p j * x j / fst p k - fst q j * x j / fst q k)) by (intros; unfold Rdiv; ring).
  rewrite sumf_minus, !sumf_div. set (a := sumf k (fun i => fst p i * x i)). set (b := sumf k (fun i => fst q i * x i)).
  unfold Rdiv. split; intros; lra.
Qed.

Lemma elim_sound : forall k cs x, sat (S k) cs x -> sat k (elim k cs) x.
Proof.
  intros k cs x H c Hc. unfold elim in Hc. apply in_app_or in Hc. destruct Hc as [Hc|Hc].
  - apply in_zero in Hc. destruct Hc as [Hi Hz]. apply (csat_zero k x c Hz). auto.
  - apply in_flat_map in Hc. destruct Hc as (p & Hp & Hc). apply in_map_iff in Hc. destruct Hc as (q & <- & Hq).
    apply in_pos in Hp. apply in_neg in Hq. apply csat_comb.
    apply Rle_trans with (x k); [apply (csat_neg k x q); [tauto|apply H; tauto]|apply (csat_pos k x p); [tauto|apply H; tauto]].
Qed.

Fixpoint lmax (d : R) (l : list R) : R := match l with [] => d | a :: t => Rmax a (lmax d t) end.
Fixpoint lmin (d : R) (l : list R) : R := match l with [] => d | a :: t => Rmin a (lmin d t) end.
Lemma lmax_ge : forall d l a, In a l -> a <= lmax d l.
Proof. intros d l a. induction l; simpl; [tauto|]. intros [->|H]; [apply Rmax_l|]. apply Rle_trans with (lmax d l); auto. apply Rmax_r. Qed.
Lemma lmax_in : forall d l, lmax d l = d \/ In (lmax d l) l.
Proof. intros d l. induction l; simpl; auto. unfold Rmax. destruct (Rle_dec a (lmax d l)); intuition. Qed.
Lemma lmin_le : forall d l a, In a l -> lmin d l <= a.
Proof. intros d l a. induction l; simpl; [tauto|]. intros [->|H]; [apply Rmin_l|]. apply Rle_trans with (lmin d l); auto. apply Rmin_r. Qed.

(** value for variable k: the largest lower bound, if there is one *)
Definition pick (k : nat) (cs : list cstr) (x : nat -> R) : R :=
  match map (bnd k x) (filter (isneg k) cs) with
  | a :: t => lmax a t
  | [] => match map (bnd k x) (filter (ispos k) cs) with a :: t => lmin a t | [] => 0 end
  end.
Lemma pick_lower : forall k cs x c, In c cs -> fst c k < 0 -> bnd k x c <= pick k cs x.
Proof.
  intros k cs x c Hc Hn. assert (H : In (bnd k x c) (map (bnd k x) (filter (isneg k) cs))) by (apply in_map, in_neg; auto).
  unfold pick. destruct (map _ (filter (isneg k) cs)) as [|a t]; [contradiction|].
  destruct H as [->|H]; [|now apply lmax_ge]. clear. induction t; simpl; [lra|]. apply Rle_trans with (lmax (bnd k x c) t); auto. apply Rmax_r.
Qed.
Lemma pick_attained : forall k cs x c, In c cs -> fst c k < 0 -> exists q, In q cs /\ fst q k < 0 /\ pick k cs x = bnd k x q.
Proof.
  intros k cs x c Hc Hn. assert (H : In (bnd k x c) (map (bnd k x) (filter (isneg k) cs))) by (apply in_map, in_neg; auto).
  assert (E : In (pick k cs x) (map (bnd k x) (filter (isneg k) cs))).
  { unfold pick. destruct (map _ (filter (isneg k) cs)) as [|a t]; [contradiction|]. destruct (lmax_in a t) as [->|]; simpl; auto. }
  apply in_map_iff in E. destruct E as (q & Eq & Hq). apply in_neg in Hq. exists q. intuition.
Qed.

Lemma elim_complete : forall k cs x, sat k (elim k cs) x -> sat (S k) cs (upd x k (pick k cs x)).
Proof.
  intros k cs x H c Hc.
  assert (B : forall d, bnd k (upd x k (pick k cs x)) d = bnd k x d) by (intros; unfold bnd; now rewrite sumf_upd).
  assert (K : upd x k (pick k cs x) k = pick k cs x) by (unfold upd; now rewrite Nat.eqb_refl).
  destruct (Rtotal_order (fst c k) 0) as [Hn|[Hz|Hp]].
  - apply csat_neg; auto. rewrite B, K. now apply pick_lower.
  - apply csat_zero; auto. assert (A : csat k x c) by (apply H; unfold elim; apply in_or_app; left; now apply in_zero).
    unfold csat in *. now rewrite sumf_upd.
  - apply csat_pos; auto. rewrite B, K.
    destruct (filter (isneg k) cs) as [|q t] eqn:EF.
    + unfold pick. rewrite EF. simpl. assert (M : In (bnd k x c) (map (bnd k x) (filter (ispos k) cs))) by (apply in_map, in_pos; auto).
      destruct (map _ (filter (ispos k) cs)) as [|a l]; [contradiction|]. destruct M as [->|M]; [|now apply lmin_le].
      clear. induction l; simpl; [lra|]. apply Rle_trans with (lmin (bnd k x c) l); auto. apply Rmin_r.
    + assert (Q : In q cs /\ fst q k < 0) by (apply in_neg; rewrite EF; now left).
      destruct (pick_attained k cs x q (proj1 Q) (proj2 Q)) as (q' & Hq' & Hn' & ->).
      apply csat_comb. apply H. unfold elim. apply in_or_app. right. apply in_flat_map. exists c. split; [now apply in_pos|].
      apply in_map. now apply in_neg.
Qed.

(** eliminate variables k-1, ..., 1, leaving constraints on variable 0 *)
Fixpoint to_one (k : nat) (cs : list cstr) : list cstr :=
  match k with O | S O => cs | S k' => to_one k' (elim k' cs) end.
Fixpoint back (k : nat) (cs : list cstr) (t : R) : nat -> R :=
  match k with
  | O | S O => upd (fun _ => 0) 0 t
  | S k' => let x := back k' (elim k' cs) t in upd x k' (pick k' cs x)
  end.
Lemma to_one_SS : forall k cs, to_one (S (S k)) cs = to_one (S k) (elim (S k) cs).
Proof. reflexivity. Qed.
Lemma back_SS : forall k cs t, back (S (S k)) cs t = upd (back (S k) (elim (S k) cs) t) (S k) (pick (S k) cs (back (S k) (elim (S k) cs) t)).
Proof. reflexivity. Qed.
Lemma to_one_sound : forall k cs x, sat (S k) cs x -> sat 1 (to_one (S k) cs) x.
Proof. induction k; intros cs x H; [exact H|]. rewrite to_one_SS. apply IHk. now apply elim_sound. Qed.
Lemma back_sat : forall k cs t, sat 1 (to_one (S k) cs) (upd (fun _ => 0) 0 t) -> sat (S k) cs (back (S k) cs t).
Proof. induction k; intros cs t H; [exact H|]. rewrite to_one_SS in H. rewrite back_SS. apply elim_complete. now apply IHk. Qed.
Lemma back_0 : forall k cs t, back (S k) cs t 0%nat = t.
Proof. induction k; intros cs t; [reflexivity|]. rewrite back_SS. unfold upd at 1. simpl Nat.eqb. cbv iota. apply IHk. Qed.

(** minimise c.x subject to cs: variable 0 is an upper bound of the objective *)
Definition shiftc (c : cstr) : cstr := (fun j => match j with O => 0 | S i => fst c i end, snd c).
Definition epi (n : nat) (c : nat -> R) (cs : list cstr) : list cstr :=
  (fun j => match j with O => -1 | S i => c i end, 0) :: map shiftc cs.
Definition nonneg_all (cs : list cstr) : bool := forallb (fun c => if Rle_dec 0 (snd c) then true else false) cs.

Definition lp_solve (n : nat) (c : nat -> R) (cs : list cstr) : option (nat -> R) :=
  let one := to_one (S n) (epi n c cs) in
  if (nonneg_all (elim 0 one) && existsb (isneg 0) one)%bool
  then Some (fun j => back (S n) (epi n c cs) (pick 0 one (fun _ => 0)) (S j))
  else None.

Definition tup (t : R) (x : nat -> R) : nat -> R := fun j => match j with O => t | S i => x i end.
Lemma csat_shift : forall n t x c, csat (S n) (tup t x) (shiftc c) <-> csat n x c.
Proof. intros n t x c. unfold csat. rewrite sumf_shift. simpl. rewrite Rmult_0_l, Rplus_0_l. tauto. Qed.
Lemma sat_epi : forall n c cs y, sat (S n) (epi n c cs) y <-> sumf n (fun j => c j * y (S j)) <= y 0%nat /\ sat n cs (fun j => y (S j)).
Proof.
  intros n c cs y.
  assert (E : forall d, csat (S n) y (shiftc d) <-> csat n (fun j => y (S j)) d).
  { intros d. unfold csat. rewrite sumf_shift. simpl. rewrite Rmult_0_l, Rplus_0_l. tauto. }
  split.
  - intros H. split.
    + specialize (H _ (or_introl eq_refl)). unfold csat in H. rewrite sumf_shift in H. simpl in H. lra.
    + intros d Hd. apply E. apply H. right. now apply in_map.
  - intros [H1 H2] d [<-|Hd].
    + unfold csat. rewrite sumf_shift. simpl. lra.
    + apply in_map_iff in Hd. destruct Hd as (d' & <- & Hd). apply E. auto.
Qed.

Lemma nonneg_all_spec : forall cs, nonneg_all cs = true <-> forall c, In c cs -> 0 <= snd c.
Proof.
  intros cs. unfold nonneg_all. rewrite forallb_forall. split; intros H c Hc; specialize (H c Hc); destruct (Rle_dec 0 (snd c)); auto; discriminate.
Qed.
Lemma sat0 : forall cs x, sat 0 cs x <-> forall c, In c cs -> 0 <= snd c.
Proof. intros. unfold sat, csat. simpl. tauto. Qed.

Theorem lp_solve_sound : forall n c cs x, lp_solve n c cs = Some x ->
  sat n cs x /\ forall y, sat n cs y -> sumf n (fun j => c j * x j) <= sumf n (fun j => c j * y j).
Proof.
  intros n c cs x H. unfold lp_solve in H. set (E := epi n c cs) in *. set (one := to_one (S n) E) in *. cbv zeta in H.
  destruct (nonneg_all (elim 0 one) && existsb (isneg 0) one)%bool eqn:B; [|discriminate].
  apply andb_prop in B. destruct B as [B1 B2]. injection H as <-. set (t := pick 0 one (fun _ => 0)).
  assert (S1 : sat 1 one (upd (fun _ => 0) 0 t)) by (apply elim_complete; apply sat0; now apply nonneg_all_spec).
  assert (S2 : sat (S n) E (back (S n) E t)) by now apply back_sat.
  apply sat_epi in S2. rewrite back_0 in S2. destruct S2 as [S2 S3]. split; auto.
  intros y Hy. apply Rle_trans with t; auto.
  apply existsb_exists in B2. destruct B2 as (q & Hq & Hn). unfold isneg in Hn. destruct (Rlt_dec (fst q 0%nat) 0) as [Hn'|]; [|discriminate].
  destruct (pick_attained 0 one (fun _ => 0) q Hq Hn') as (q' & Hq' & Hn2 & Ep). fold t in Ep. rewrite Ep.
  set (v := sumf n (fun j => c j * y j)).
  assert (S4 : sat (S n) E (tup v y)) by (apply sat_epi; split; simpl; [unfold v; lra|exact Hy]).
  apply to_one_sound in S4. fold one in S4. specialize (S4 q' Hq'). apply csat_neg in S4; auto.
Qed.

Theorem lp_solve_complete : forall n c cs lo, (exists x, sat n cs x) ->
  (forall x, sat n cs x -> lo <= sumf n (fun j => c j * x j)) -> exists x, lp_solve n c cs = Some x.
Proof.
  intros n c cs lo (x0 & H0) HB. unfold lp_solve. set (E := epi n c cs). set (one := to_one (S n) E). cbv zeta.
  assert (S4 : sat 1 one (tup (sumf n (fun j => c j * x0 j)) x0)) by (apply to_one_sound; apply sat_epi; split; simpl; [lra|exact H0]).
  assert (B1 : nonneg_all (elim 0 one) = true) by (apply nonneg_all_spec; refine (proj1 (sat0 _ (tup (sumf n (fun j => c j * x0 j)) x0)) _); now apply elim_sound).
  rewrite B1. simpl. destruct (existsb (isneg 0) one) eqn:B2; [eauto|]. exfalso.
  assert (NN : forall q, In q one -> 0 <= fst q 0%nat).
  { intros q Hq. destruct (Rlt_dec (fst q 0%nat) 0) as [L|]; [|lra]. assert (C : existsb (isneg 0) one = true).
    { apply existsb_exists. exists q. split; auto. unfold isneg. destruct (Rlt_dec (fst q 0%nat) 0); auto. } congruence. }
  set (t := Rmin (sumf n (fun j => c j * x0 j)) (lo - 1)).
  assert (S1 : sat 1 one (upd (fun _ => 0) 0 t)).
  { intros q Hq. specialize (S4 q Hq). specialize (NN q Hq). unfold csat in *. simpl in *. unfold upd. simpl.
    assert (t <= sumf n (fun j => c j * x0 j)) by apply Rmin_l.
    assert (fst q 0%nat * t <= fst q 0%nat * sumf n (fun j => c j * x0 j)) by (apply Rmult_le_compat_l; auto). lra. }
  apply back_sat in S1. apply sat_epi in S1. rewrite back_0 in S1. destruct S1 as [S1 S2]. specialize (HB _ S2).
  assert (t <= lo - 1) by apply Rmin_r. lra.
Qed.
