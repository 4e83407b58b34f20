(** conditional Gaussian means of polynomials and their mean squared error *)
From Coq Require Import Reals Lra Lia List Arith ZArith Bool FunctionalExtensionality.
From Verif Require Import Prelude Py NumArr LinAlg Tridiag GaussRules M_RespSurf P_IndexSet P_Poly P_PolyFacts PolySub Cubature Deriv Integral JacobiPoly Properties_Quadrature Properties_Integrate GaussPoincare GaussRotate.
Import ListNotations.
Open Scope R_scope.

(** h is g averaged over the coordinates n, .., n + k - 1, standard normal and independent *)
Fixpoint cmean (n k : nat) (g h : (nat -> R) -> R) : Prop :=
  match k with
  | O => forall x, g x = h x
  | S k' => exists h', (forall x, gaussian_mean (fun t => g (upd x (n + k') t)) (h' x)) /\ cmean n k' h' h
  end.

Lemma upd_upd : forall x c t s, upd (upd x c t) c s = upd x c s.
Proof. intros. apply functional_extensionality. intros i. unfold upd. destruct (Nat.eqb i c); auto. Qed.
Lemma upd_at : forall x c t, upd x c t c = t.
Proof. intros. unfold upd. now rewrite Nat.eqb_refl. Qed.
Lemma poly_dep : forall n N p x y, is_poly n N p -> (forall a, (a < n)%nat -> x a = y a) -> p x = p y.
Proof. intros n N p x y (T & a & e & _ & E) H. rewrite !E. unfold terms_eval. apply sumf_ext. intros t _. f_equal. apply prodf_ext. intros j Hj. now rewrite H. Qed.
Lemma poly_upd : forall n N p x c t, is_poly n N p -> (n <= c)%nat -> p (upd x c t) = p x.
Proof. intros n N p x c t P L. apply (poly_dep n N); auto. intros a Ha. unfold upd. now rewrite (proj2 (Nat.eqb_neq a c)) by lia. Qed.
Lemma mon_upd_last : forall c e x t, mon (S c) e (upd x c t) = mon c e x * t ^ e c.
Proof. intros. unfold mon. cbn [prodf]. rewrite prodf_upd, upd_at. reflexivity. Qed.
Lemma dmon_upd_last : forall c e j x t, (j < c)%nat -> dmon (S c) e j (upd x c t) = dmon c e j x * t ^ e c.
Proof.
  intros c e j x t Hj. unfold dmon. cbn [prodf]. rewrite upd_at, (proj2 (Nat.eqb_neq c j)) by lia. f_equal.
  apply prodf_ext. intros i Hi. unfold upd. now rewrite (proj2 (Nat.eqb_neq i c)) by lia.
Qed.

Lemma avg_terms : forall c T a e x,
  gaussian_mean (fun t => terms_eval (S c) T a e (upd x c t)) (terms_eval c T (fun q => a q * mom (e q c)) e x).
Proof.
  intros c T a e x. apply (gm_ext (fun t => sumf T (fun q => a q * mon c (e q) x * t ^ e q c))).
  - intros t. unfold terms_eval. apply sumf_ext. intros q Hq. change (prodf (S c) (fun j => upd x c t j ^ e q j)) with (mon (S c) (e q) (upd x c t)). rewrite mon_upd_last. ring.
  - unfold terms_eval. rewrite (sumf_ext T _ (fun q => a q * mon c (e q) x * mom (e q c))) by (intros; unfold mon; ring).
    apply (gm_sum T (fun q t => a q * mon c (e q) x * t ^ e q c)). intros q Hq. apply gm_scal, mom_mean.
Qed.
Lemma avg_dterms : forall c T a e j x, (j < c)%nat ->
  gaussian_mean (fun t => dterms (S c) T a e j (upd x c t)) (dterms c T (fun q => a q * mom (e q c)) e j x).
Proof.
  intros c T a e j x Hj. apply (gm_ext (fun t => sumf T (fun q => a q * dmon c (e q) j x * t ^ e q c))).
  - intros t. unfold dterms. apply sumf_ext. intros q Hq. rewrite dmon_upd_last by auto. ring.
  - unfold dterms. rewrite (sumf_ext T _ (fun q => a q * dmon c (e q) j x * mom (e q c))) by (intros; ring).
    apply (gm_sum T (fun q t => a q * dmon c (e q) j x * t ^ e q c)). intros q Hq. apply gm_scal, mom_mean.
Qed.
Lemma fex : forall (p q : (nat -> R) -> R), (forall x, p x = q x) -> p = q.
Proof. intros. now apply functional_extensionality. Qed.

Lemma avg_exists : forall c N g, is_poly (S c) N g -> exists h, is_poly c N h /\ forall x, gaussian_mean (fun t => g (upd x c t)) (h x).
Proof.
  intros c N g (T & a & e & H & E). rewrite (fex _ _ E). exists (terms_eval c T (fun q => a q * mom (e q c)) e). split; [|intros; apply avg_terms].
  exists T, (fun q => a q * mom (e q c)), e. split; auto. intros t Ht. specialize (H t Ht). rewrite nsum_S in H. lia.
Qed.
Lemma avg_poly : forall c N g h, is_poly (S c) N g -> (forall x, gaussian_mean (fun t => g (upd x c t)) (h x)) -> is_poly c N h.
Proof.
  intros c N g h P H. destruct (avg_exists c N g P) as (h' & P' & H'). apply (is_poly_ext c N h'); auto. intros x. exact (gaussian_mean_unique _ _ _ (H' x) (H x)).
Qed.
Lemma avg_pd : forall c N g g' h h' j, is_poly (S c) N g -> (j < c)%nat -> pd j g g' ->
  (forall x, gaussian_mean (fun t => g (upd x c t)) (h x)) -> (forall x, gaussian_mean (fun t => g' (upd x c t)) (h' x)) -> pd j h h'.
Proof.
  intros c N g g' h h' j (T & a & e & H & E) Hj Hp A A'. pose proof (fex _ _ E) as Q. subst g.
  assert (E' : g' = dterms (S c) T a e j) by (apply fex; apply (pd_unique j _ _ _ Hp); apply pd_terms; lia). subst g'.
  assert (Eh : h = terms_eval c T (fun q => a q * mom (e q c)) e) by (apply fex; intros x; exact (gaussian_mean_unique _ _ _ (A x) (avg_terms c T a e x))).
  assert (Eh' : h' = dterms c T (fun q => a q * mom (e q c)) e j) by (apply fex; intros x; exact (gaussian_mean_unique _ _ _ (A' x) (avg_dterms c T a e j x Hj))).
  subst h h'. now apply pd_terms.
Qed.
(** a polynomial along one coordinate *)
Lemma poly_line : forall c N g x, is_poly (S c) N g -> exists l, forall t, g (upd x c t) = peval l t.
Proof.
  intros c N g x (T & a & e & H & E). exists (collect T (fun q => a q * mon c (e q) x) (fun q => e q c)). intros t. rewrite collect_eval, E. unfold terms_eval.
  apply sumf_ext. intros q Hq. change (prodf (S c) (fun j => upd x c t j ^ e q j)) with (mon (S c) (e q) (upd x c t)). rewrite mon_upd_last. ring.
Qed.

Lemma cmean_exists : forall k n N g, is_poly (n + k) N g -> exists h, cmean n k g h /\ is_poly n N h.
Proof.
  induction k; intros n N g P; cbn [cmean].
  - rewrite Nat.add_0_r in P. exists g. split; auto.
  - rewrite Nat.add_succ_r in P. destruct (avg_exists _ _ _ P) as (h' & P' & A). destruct (IHk n N h' P') as (h & C & Ph). exists h. split; auto. exists h'. auto.
Qed.
Lemma cmean_poly : forall k n N g h, is_poly (n + k) N g -> cmean n k g h -> is_poly n N h.
Proof.
  induction k; intros n N g h P C; cbn [cmean] in C.
  - rewrite Nat.add_0_r in P. now apply (is_poly_ext n N g).
  - rewrite Nat.add_succ_r in P. destruct C as (h' & A & C). apply (IHk n N h' h); auto. now apply (avg_poly _ _ g).
Qed.
Lemma cmean_unique : forall k n g h h', cmean n k g h -> cmean n k g h' -> forall x, h x = h' x.
Proof.
  induction k; intros n g h h' C C'; cbn [cmean] in *; [intros x; now rewrite <- C, C'|].
  destruct C as (u & A & C), C' as (u' & A' & C'). assert (u = u') by (apply fex; intros x; exact (gaussian_mean_unique _ _ _ (A x) (A' x))). subst u'. now apply (IHk n u).
Qed.
(** the mean of the conditional mean is the mean *)
Lemma tower : forall k n g h L, cmean n k g h -> Ex n h L -> Ex (n + k) g L.
Proof.
  induction k; intros n g h L C H; cbn [cmean] in C.
  - rewrite Nat.add_0_r. now apply (ex_ext n h).
  - rewrite Nat.add_succ_r. destruct C as (h' & A & C). cbn [mean_nd]. exists h'. split; auto. now apply (IHk n h' h).
Qed.
(** functions of the first n coordinates come out *)
Lemma cmean_mult : forall k n N g h q, is_poly n N q -> cmean n k g h -> cmean n k (fun x => q x * g x) (fun x => q x * h x).
Proof.
  induction k; intros n N g h q P C; cbn [cmean] in *; [intros x; now rewrite C|].
  destruct C as (h' & A & C). exists (fun x => q x * h' x). split; [|now apply (IHk n N)].
  intros x. apply (gm_ext (fun t => q x * g (upd x (n + k) t))); [|now apply gm_scal]. intros t. now rewrite (poly_upd n N q) by (auto; lia).
Qed.
Lemma poly_up : forall n k N p, is_poly n N p -> is_poly (n + k) N p.
Proof.
  intros n k N p (T & a & e & H & E). exists T, a, (fun t j => if Nat.ltb j n then e t j else 0%nat). split.
  - intros t Ht. specialize (H t Ht). replace (nsum (n + k) (fun j => if Nat.ltb j n then e t j else 0%nat)) with (nsum n (e t)); auto. clear. induction k.
    + rewrite Nat.add_0_r. apply nsum_ext. intros i Hi. now rewrite (proj2 (Nat.ltb_lt i n) Hi).
    + rewrite Nat.add_succ_r, nsum_S, <- IHk. rewrite (proj2 (Nat.ltb_ge (n + k) n)) by lia. lia.
  - intros x. rewrite E. unfold terms_eval. apply sumf_ext. intros t Ht. f_equal. clear. induction k.
    + rewrite Nat.add_0_r. apply prodf_ext. intros i Hi. now rewrite (proj2 (Nat.ltb_lt i n) Hi).
    + rewrite Nat.add_succ_r. cbn [prodf]. rewrite <- IHk, (proj2 (Nat.ltb_ge (n + k) n)) by lia. simpl. ring.
Qed.

(** the conditional mean is the best function of the first n coordinates *)
Lemma cmean_best : forall k n N N' g h q A B, is_poly (n + k) N g -> is_poly n N' q -> cmean n k g h ->
  Ex (n + k) (fun x => (g x - h x) * (g x - h x)) A -> Ex (n + k) (fun x => (g x - q x) * (g x - q x)) B -> A <= B.
Proof.
  intros k n N N' g h q A B Pg Pq C HA HB. assert (Ph := cmean_poly _ _ _ _ _ Pg C).
  assert (PD : is_poly n (Nat.max N N') (fun x => q x + -1 * h x)) by (apply is_poly_plus; [|apply is_poly_scal]; eapply is_poly_le; try eassumption; lia).
  (* E[(q - h) (g - h)] = 0 *)
  assert (Z : Ex (n + k) (fun x => (q x + -1 * h x) * (g x - h x)) 0).
  { assert (M1 := cmean_mult k n _ g h _ PD C). destruct (ex_poly n _ (fun x => (q x + -1 * h x) * h x) (is_poly_mult _ _ _ _ _ PD Ph)) as (L & HL).
    assert (T1 := tower _ _ _ _ _ M1 HL).
    assert (CH : cmean n k h h).
    { clear - Ph. induction k; cbn [cmean]; auto. exists h. split; auto. intros x. apply (gm_ext (fun _ => h x)); [|apply gm_const]. intros t. symmetry. apply (poly_upd n N); auto. lia. }
    assert (M2 := cmean_mult k n _ h h _ PD CH). assert (T2 := tower _ _ _ _ _ M2 HL).
    assert (Q := ex_lin _ _ _ _ _ (-1) T1 T2). replace (L + -1 * L) with 0 in Q by ring. eapply ex_ext; [|exact Q]. intros; cbv beta; ring. }
  assert (SQ := is_poly_mult _ _ _ _ _ PD PD). destruct (ex_poly _ _ _ (poly_up n k _ _ SQ)) as (S & HS).
  assert (S0 : 0 <= S) by (eapply ex_nonneg; [|exact HS]; intros x; apply Rle_0_sqr).
  assert (F := ex_lin _ _ _ _ _ (-2) (ex_plus _ _ _ _ _ HA HS) Z).
  assert (B = A + S + -2 * 0); [|lra]. eapply ex_unique; [exact HB|]. eapply ex_ext; [|exact F]. intros x. cbv beta. ring.
Qed.

Lemma poincare_nd : forall k n N g h (g' : nat -> (nat -> R) -> R) A (B : nat -> R), is_poly (n + k) N g ->
  (forall j, (j < k)%nat -> pd (n + j) g (g' j)) -> cmean n k g h ->
  Ex (n + k) (fun x => (g x - h x) * (g x - h x)) A -> (forall j, (j < k)%nat -> Ex (n + k) (fun x => g' j x * g' j x) (B j)) -> A <= sumf k B.
Proof.
  induction k; intros n N g h g' A B P Hp C HA HB.
  - cbn [cmean] in C. cbn [sumf]. apply Req_le. eapply ex_unique; [exact HA|]. eapply ex_ext; [|apply (ex_const _ 0)]. intros x. cbv beta. rewrite C. ring.
  - rewrite Nat.add_succ_r in P, HA. set (c := (n + k)%nat) in *. assert (C0 := C). cbn [cmean] in C. fold c in C. destruct C as (h1 & A1 & C1).
    assert (P1 := avg_poly c N g h1 P A1). assert (Ph := cmean_poly _ _ _ _ _ P1 C1).
    cbn [mean_nd] in HA. destruct HA as (M1 & AM & HM).
    assert (HBk := HB k ltac:(lia)). rewrite Nat.add_succ_r in HBk. fold c in HBk. cbn [mean_nd] in HBk. destruct HBk as (b1 & Ab & Hb).
    assert (PT : forall x, M1 x <= b1 x + (h1 x - h x) * (h1 x - h x)).
    { intros x. destruct (poly_line c N g x P) as (l & El).
      assert (H2 : gaussian_mean (fun t => (g (upd x c t) - h1 x) * (g (upd x c t) - h1 x)) (M1 x - (h1 x - h x) * (h1 x - h x))).
      { assert (Q := gm_lin _ _ _ _ (-2 * (h1 x - h x)) (gm_plus _ _ _ _ (AM x) (gm_const (h1 x * h1 x - h x * h x))) (A1 x)).
        replace (M1 x - (h1 x - h x) * (h1 x - h x)) with (M1 x + (h1 x * h1 x - h x * h x) + -2 * (h1 x - h x) * h1 x) by ring.
        eapply gm_ext; [|exact Q]. intros t. cbv beta. rewrite (poly_upd n N h) by (auto; unfold c; lia). ring. }
      assert (L := poincare1 l (fun t => g (upd x c t)) (fun t => g' k (upd x c t)) (h1 x) (M1 x - (h1 x - h x) * (h1 x - h x)) (b1 x) El).
      assert (DP : forall t, D (fun t => g (upd x c t)) t (g' k (upd x c t))).
      { intros t. assert (Q := Hp k ltac:(lia) (upd x c t)). fold c in Q. rewrite upd_at in Q. eapply D_ext; [exact Q|]. intros s. cbv beta. now rewrite upd_upd. }
      specialize (L DP (A1 x) H2 (Ab x)). lra. }
    assert (PD : is_poly c N (fun x => h1 x + -1 * h x)) by (apply is_poly_plus; auto; apply is_poly_scal; unfold c; now apply poly_up).
    destruct (ex_poly _ _ _ (is_poly_mult _ _ _ _ _ PD PD)) as (A' & HA').
    assert (HA2 : Ex c (fun x => (h1 x - h x) * (h1 x - h x)) A') by (eapply ex_ext; [|exact HA']; intros; cbv beta; ring).
    assert (L1 : A <= B k + A') by (eapply ex_le; [exact PT|exact HM|now apply ex_plus]).
    assert (PG : forall j, (j < k)%nat -> is_poly (S c) (pred N) (g' j)).
    { intros j Hj. apply (pd_poly (S c) N g (n + j)); auto; unfold c; lia. }
    destruct (finite_choice ((nat -> R) -> R) (fun _ => 0) k (fun j h' => is_poly c (pred N) h' /\ forall x, gaussian_mean (fun t => g' j (upd x c t)) (h' x))) as (h' & Hh').
    { intros j Hj. apply avg_exists. auto. }
    destruct (finite_choice R 0 k (fun j b => Ex c (fun x => h' j x * h' j x) b)) as (B' & HB').
    { intros j Hj. destruct (Hh' j Hj) as (Pj & _). apply (ex_poly c _ _ (is_poly_mult _ _ _ _ _ Pj Pj)). }
    assert (L2 : A' <= sumf k B').
    { apply (IHk n N h1 h h'); auto. intros j Hj. apply (avg_pd c N g (g' j) h1 (h' j)); auto. unfold c; lia. apply Hh'; auto. }
    assert (L3 : sumf k B' <= sumf k B).
    { apply sumf_le. intros j Hj. assert (Q := HB j ltac:(lia)). rewrite Nat.add_succ_r in Q. fold c in Q. cbn [mean_nd] in Q. destruct Q as (b & Qa & Qb).
      eapply ex_le; [|apply HB'; auto|exact Qb]. intros x. destruct (Hh' j Hj) as (_ & Aj).
      assert (S := gm_lin _ _ _ _ (-2 * h' j x) (gm_plus _ _ _ _ (Qa x) (gm_const (h' j x * h' j x))) (Aj x)).
      assert (0 <= b x + h' j x * h' j x + -2 * h' j x * h' j x); [|lra]. eapply gm_nonneg; [|exact S]. intros t. cbv beta.
      replace (g' j (upd x c t) * g' j (upd x c t) + h' j x * h' j x + -2 * h' j x * g' j (upd x c t)) with (Rsqr (g' j (upd x c t) - h' j x)) by (unfold Rsqr; ring). apply Rle_0_sqr. }
    cbn [sumf]. lra.
Qed.
