(** Final theorems on the error of functions of the active variables: C85 *)
From Coq Require Import String Reals Lra Lia List Arith ZArith Bool FunctionalExtensionality.
From Verif Require Import Prelude Py NumArr Toy GaussRules M_Misc M_RespSurf M_Gradients M_Subspaces M_Quadrature
  Lsq Det EighRef Tridiag Sorting P_Tensor P_Bootstrap P_Misc P_Quadrature P_IndexSet P_Poly P_PolyFacts PolySub Spectral P_Subspaces P_SubsState P_SubsLive M_SimRunners LinAlg Cubature
  Properties_Misc Properties_Quadrature Properties_Subspaces Properties_SubsState Properties_Cubature Deriv GaussPoincare GaussRotate GaussCond.
Import ListNotations.
Open Scope R_scope.

(** the coordinates of x in the directions given by the columns of V *)
Definition coords (m : nat) (V : nat -> nat -> R) (x : nat -> R) : nat -> R := fun a => sumf m (fun i => V i a * x i).

Lemma coords_lmap : forall m V u a, orthonormal m m V -> (a < m)%nat -> coords m V (lmap m V u) a = u a.
Proof.
  intros m V u a HV Ha. unfold coords, lmap. rewrite (sumf_ext m _ (fun i => V i a * sumf m (fun b => u b * V i b))).
  - now apply orthonormal_coef.
  - intros i Hi. f_equal. apply sumf_ext. intros; ring.
Qed.
Lemma coords_poly : forall m n N V q, (n <= m)%nat -> is_poly n N q -> is_poly m N (fun x => q (coords m V x)).
Proof. intros m n N V q L P. apply (is_poly_comp n m N q (fun a i => V i a) P). Qed.

(** mean squared error of the conditional mean given the first n coordinates *)
Lemma frame_bound : forall m n N f (G : nat -> (nat -> R) -> R) V h A (B : nat -> R), orthonormal m m V -> (n <= m)%nat -> is_poly m N f ->
  (forall i, (i < m)%nat -> pd i f (G i)) -> cmean n (m - n) (fun u => f (lmap m V u)) h ->
  Ex m (fun x => (f x - h (coords m V x)) * (f x - h (coords m V x))) A ->
  (forall j, (j < m - n)%nat -> Ex m (fun x => sumf m (fun i => V i (n + j)%nat * G i x) * sumf m (fun i => V i (n + j)%nat * G i x)) (B j)) ->
  A <= sumf (m - n) B.
Proof.
  intros m n N f G V h A B HV Hn Pf HG C HA HB. set (g := fun u => f (lmap m V u)) in *.
  assert (Pg : is_poly m N g) by (apply (is_poly_comp m m N f V Pf)).
  assert (Em : (n + (m - n) = m)%nat) by lia.
  assert (Ph : is_poly n N h) by (apply (cmean_poly (m - n) n N g); [rewrite Em|]; auto).
  assert (PF : is_poly m N (fun x => f x + -1 * h (coords m V x))) by (apply is_poly_plus; auto; apply is_poly_scal, (coords_poly m n); auto).
  apply (poincare_nd (m - n) n N g h (fun j u => sumf m (fun k => V k (n + j)%nat * G k (lmap m V u)))); rewrite ?Em; auto.
  - intros j Hj. apply (pd_lmap m N V f G); auto. lia.
  - assert (R := rotate m _ V _ A HV (is_poly_mult _ _ _ _ _ PF PF)).
    eapply ex_ext; [|apply R; eapply ex_ext; [|exact HA]; intros x; cbv beta; ring]. intros u. cbv beta.
    rewrite (poly_dep n N h (coords m V (lmap m V u)) u Ph) by (intros a Ha; apply coords_lmap; auto; lia). unfold g. ring.
  - intros j Hj. assert (PS : is_poly m (pred N) (fun x => sumf m (fun i => V i (n + j)%nat * G i x))).
    { apply (is_poly_sum m (pred N) m (fun i x => V i (n + j)%nat * G i x)). intros i Hi. apply is_poly_scal. apply (pd_poly m N f i); auto. }
    exact (rotate m _ V _ (B j) HV (is_poly_mult _ _ _ _ _ PS PS) (HB j Hj)).
Qed.
Lemma frame_best : forall m n N N' f V h q A B, orthonormal m m V -> (n <= m)%nat -> is_poly m N f -> is_poly n N' q ->
  cmean n (m - n) (fun u => f (lmap m V u)) h ->
  Ex m (fun x => (f x - h (coords m V x)) * (f x - h (coords m V x))) A ->
  Ex m (fun x => (f x - q (coords m V x)) * (f x - q (coords m V x))) B -> A <= B.
Proof.
  intros m n N N' f V h q A B HV Hn Pf Pq C HA HB. set (g := fun u => f (lmap m V u)) in *.
  assert (Pg : is_poly m N g) by (apply (is_poly_comp m m N f V Pf)).
  assert (Em : (n + (m - n) = m)%nat) by lia.
  assert (Ph : is_poly n N h) by (apply (cmean_poly (m - n) n N g); [rewrite Em|]; auto).
  assert (T : forall N' q B, is_poly n N' q -> Ex m (fun x => (f x - q (coords m V x)) * (f x - q (coords m V x))) B -> Ex m (fun u => (g u - q u) * (g u - q u)) B).
  { clear q B HB Pq N'. intros N' q B Pq HB.
    assert (PF : is_poly m (Nat.max N N') (fun x => f x + -1 * q (coords m V x))) by (apply is_poly_plus; [|apply is_poly_scal, (coords_poly m n); auto]; eapply is_poly_le; try eassumption; lia).
    assert (R := rotate m _ V _ B HV (is_poly_mult _ _ _ _ _ PF PF)).
    eapply ex_ext; [|apply R; eapply ex_ext; [|exact HB]; intros x; cbv beta; ring]. intros u. cbv beta.
    rewrite (poly_dep n N' q (coords m V (lmap m V u)) u Pq) by (intros a Ha; apply coords_lmap; auto; lia). unfold g. ring. }
  apply (cmean_best (m - n) n N N' g h q); rewrite ?Em; eauto.
Qed.

(** mean squared slope along v from the eigenpairs of E[G G^T] *)
Lemma slope_mean : forall m (G : nat -> (nat -> R) -> R) (e : nat -> R) V,
  (forall i j, (i < m)%nat -> (j < m)%nat -> Ex m (fun y => G i y * G j y) (sumf m (fun k => e k * (V i k * V j k)))) ->
  forall v, Ex m (fun x => sumf m (fun i => v i * G i x) * sumf m (fun i => v i * G i x))
    (sumf m (fun k => e k * (sumf m (fun i => V i k * v i) * sumf m (fun i => V i k * v i)))).
Proof.
  intros m G e V HC v.
  assert (A : Ex m (fun x => sumf m (fun i => sumf m (fun j => v i * v j * (G i x * G j x)))) (sumf m (fun i => sumf m (fun j => v i * v j * sumf m (fun k => e k * (V i k * V j k)))))).
  { apply (ex_sum m m (fun i x => sumf m (fun j => v i * v j * (G i x * G j x)))). intros i Hi.
    apply (ex_sum m m (fun j x => v i * v j * (G i x * G j x))). intros j Hj. apply ex_scal. auto. }
  replace (sumf m (fun k => e k * (sumf m (fun i => V i k * v i) * sumf m (fun i => V i k * v i))))
    with (sumf m (fun i => sumf m (fun j => v i * v j * sumf m (fun k => e k * (V i k * V j k))))).
  - eapply ex_ext; [|exact A]. intros x. cbv beta. rewrite sumf_mul. apply sumf_ext. intros i Hi. apply sumf_ext. intros; ring.
  - rewrite (sumf_ext m _ (fun i => sumf m (fun k => sumf m (fun j => e k * ((V i k * v i) * (V j k * v j)))))).
    + rewrite sumf_swap. apply sumf_ext. intros k Hk. rewrite sumf_mul, <- sumf_scal_l. apply sumf_ext. intros i Hi. rewrite <- sumf_scal_l. apply sumf_ext. intros; ring.
    + intros i Hi. rewrite sumf_swap. apply sumf_ext. intros j Hj. rewrite <- sumf_scal_l. apply sumf_ext. intros; ring.
Qed.

(** rows of a matrix are no longer than its spectral norm *)
Lemma norm2_row : forall r c M v k, is_norm2 r c M v -> (k < r)%nat -> sumf c (fun j => M k j * M k j) <= v * v.
Proof.
  intros r c M v k (V0 & VB & _) Hk. set (s := sumf c (fun j => M k j * M k j)). assert (S0 : 0 <= s) by apply sumf_sq_nonneg.
  assert (B := VB (fun j => M k j)). cbv beta in B. fold s in B.
  assert (L : s * s <= sumf r (fun i => sumf c (fun j => M i j * M k j) * sumf c (fun j => M i j * M k j))).
  { apply (sumf_term_le r (fun i => sumf c (fun j => M i j * M k j) * sumf c (fun j => M i j * M k j)) k); auto. intros; apply Rle_0_sqr. }
  destruct (Req_dec s 0) as [Z|NZ]; [rewrite Z; apply Rle_0_sqr|]. apply (Rmult_le_reg_r s); lra.
Qed.

Lemma perturbed_bound : forall m n (e : nat -> R) (V Vh : nat -> nat -> R) ep, orthonormal m m V -> orthonormal m m Vh -> (n <= m)%nat ->
  (forall j, (j < m)%nat -> 0 <= e j) -> ((0 < n)%nat -> (n < m)%nat -> is_norm2 n (m - n) (fun a b => sumf m (fun i => V i a * Vh i (n + b)%nat)) ep) ->
  sumf (m - n) (fun j => sumf m (fun k => e k * (sumf m (fun i => V i k * Vh i (n + j)%nat) * sumf m (fun i => V i k * Vh i (n + j)%nat))))
    <= ep * ep * sumf n e + sumf (m - n) (fun j => e (n + j)%nat).
Proof.
  intros m n e V Vh ep HV HVh Hn He HE. rewrite sumf_swap. rewrite (sumf_le_split m n) by auto. apply Rplus_le_compat.
  - rewrite <- sumf_scal_l. apply sumf_le. intros k Hk. rewrite sumf_scal_l, Rmult_comm. apply Rmult_le_compat_r; [apply He; lia|].
    destruct (Nat.eq_dec n m) as [->|NE]; [rewrite Nat.sub_diag; apply Rle_0_sqr|].
    apply (norm2_row n (m - n) (fun a b => sumf m (fun i => V i a * Vh i (n + b)%nat)) ep k); auto. apply HE; lia.
  - apply sumf_le. intros k Hk. rewrite sumf_scal_l. rewrite <- (Rmult_1_r (e (n + k)%nat)) at 2. apply Rmult_le_compat_l; [apply He; lia|].
    assert (OW : orthonormal m (m - n) (fun i j => Vh i (n + j)%nat)).
    { intros a b Ha Hb. rewrite HVh by lia. unfold kron_delta. destruct (Nat.eqb_spec a b), (Nat.eqb_spec (n + a) (n + b)); auto; lia. }
    assert (B := bessel m (m - n) _ OW (fun i => V i (n + k)%nat)). cbv beta in B.
    rewrite (HV (n + k)%nat (n + k)%nat), kd_same in B by lia. eapply Rle_trans; [|exact B]. apply Req_le, sumf_ext. intros j Hj. unfold Rsqr.
    rewrite (sumf_ext m (fun i => V i (n + k)%nat * Vh i (n + j)%nat) (fun i => Vh i (n + j)%nat * V i (n + k)%nat)) by (intros; ring). ring.
Qed.
Lemma sqrt_bound : forall a ep s t, 0 <= ep -> 0 <= s -> 0 <= t -> a <= ep * ep * s + t -> sqrt a <= sqrt s * ep + sqrt t.
Proof.
  intros a ep s t He Hs Ht H. assert (S := sqrt_pos s). assert (T := sqrt_pos t).
  assert (P : 0 <= sqrt s * ep + sqrt t) by (apply Rplus_le_le_0_compat; auto; apply Rmult_le_pos; auto).
  rewrite <- (sqrt_square _ P). apply sqrt_le_1_alt. eapply Rle_trans; [exact H|].
  replace ((sqrt s * ep + sqrt t) * (sqrt s * ep + sqrt t)) with (ep * ep * (sqrt s * sqrt s) + sqrt t * sqrt t + 2 * (sqrt s * ep * sqrt t)) by ring.
  rewrite !sqrt_sqrt by auto. assert (0 <= sqrt s * ep * sqrt t) by (repeat apply Rmult_le_pos; auto). lra.
Qed.

(** ** C85 *)
(** e and V are the stored eigenpairs; f is the function whose gradients were
    given at the Gauss-Hermite points x with weights w *)
Lemma stored_pairs : forall eigh eig argsort lstsq norm2 det (Gn : gen) (U : Type) l D (G : nat -> (nat -> R) -> R) x w df ptype nboot (ws ws' : world Gn U (nd R) * subspaces),
  eigh_contract eigh -> eig_contract eig -> eig_total eig -> argsort_contract argsort -> norm2_contract norm2 -> det_contract det ->
  let m := List.length l in
  Forall (fun n => 1 <= n <= 10 ^ 24)%Z l ->
  (forall k, (k < m)%nat -> (D < Z.to_nat (nth k l 0%Z))%nat) -> (forall i, (i < m)%nat -> is_poly m D (G i)) ->
  gauss_hermite eig argsort (NList l) = Ok (x, w) ->
  shape df = [nrows x; m] -> (forall r i, (r < nrows x)%nat -> (i < m)%nat -> df.[r, i] = G i (fun k => x.[r, k])) ->
  ss_compute eigh argsort lstsq norm2 det None None (Some df) (Some w) "AS" ptype nboot ws = (Ok tt, ws') ->
  exists e V, s_eigenvals (snd ws') = Some e /\ s_eigenvecs (snd ws') = Some V /\ shape V = [m; m] /\
    orthonormal m m (ent V) /\ (forall j, (j < m)%nat -> 0 <= e.[j, 0%nat]) /\
    (forall i j, (i < m)%nat -> (j < m)%nat -> Ex m (fun y => G i y * G j y) (sumf m (fun k => e.[k, 0%nat] * (V.[i, k] * V.[j, k])))).
Proof.
  intros eigh eig argsort lstsq norm2 det Gn U l D G x w df ptype nboot ws ws' HE HI HIT HA HN HD m HL Hdeg HG H Sd Hdf EC.
  destruct (C84_hermite_cubature eig argsort l 0 (fun _ => 0) x w HI HIT HA HL) as (q & Sx & Sw & P & _); auto.
  { intros k Hk. specialize (Hdeg k Hk). lia. }
  { exact (is_poly_const _ 0 0). }
  fold m in Sx. assert (NR : nrows x = q) by (unfold nrows; now rewrite Sx). rewrite NR in *.
  assert (EX : forall g, is_poly m (D + D) g -> mean_nd gaussian_mean m g (sumf q (fun r => w.[r, 0%nat] * g (fun k => x.[r, k])))).
  { intros g Hg. destruct (C84_hermite_cubature eig argsort l (D + D) g x w HI HIT HA HL) as (q' & Sx' & _ & _ & R); auto.
    - intros k Hk. specialize (Hdeg k Hk). lia.
    - fold m in Sx', R. rewrite Sx in Sx'. inversion Sx'; subst q'. exact R. }
  destruct (C53_compute eigh argsort lstsq norm2 det Gn U None None (Some df) (Some w) "AS" ptype nboot ws ws' HE HA HN HD ltac:(intros a b Q; discriminate) EC)
    as (M & m' & e & V & n & A & w1 & Sd' & HM & Ee & EV & _).
  unfold ssmethod in HM. rewrite (eq_refl : String.eqb "AS" "AS" = true) in HM. unfold mlift in HM.
  destruct (active_subspace eigh argsort df w) as [[e' V']|] eqn:EA; [|discriminate]. inversion HM; subst e' V'.
  exists e, V. split; [exact Ee|]. split; [exact EV|].
  destruct (cubature_subspace gaussian_mean eigh argsort m q D G x w df e V gaussian_mean_unique EX HE HA HG Sw P Sd Hdf EA) as (Se & SV & HO & HS & HC & _).
  split; [exact SV|]. split; [exact HO|]. split; [|exact HC].
  intros j Hj. eapply ex_nonneg; [|exact (HS j Hj)]. intros y. apply Rle_0_sqr.
Qed.

(** for every n the mean of f given the first n active variables exists, its
    mean squared error is at most the sum of the other eigenvalues, and no
    polynomial in the first n active variables does better *)
Theorem C85_active_variables : forall eigh eig argsort lstsq norm2 det (Gn : gen) (U : Type) l D f (G : nat -> (nat -> R) -> R) x w df (ws : world Gn U (nd R) * subspaces),
  eigh_contract eigh -> eigh_total eigh -> eig_contract eig -> eig_total eig -> argsort_contract argsort -> norm2_contract norm2 -> det_contract det ->
  let m := List.length l in let E := mean_nd gaussian_mean m in
  (2 <= m)%nat -> Forall (fun n => 1 <= n <= 10 ^ 24)%Z l ->
  is_poly m D f -> (forall k, (k < m)%nat -> (D <= Z.to_nat (nth k l 0%Z))%nat) -> (forall i, (i < m)%nat -> pd i f (G i)) ->
  gauss_hermite eig argsort (NList l) = Ok (x, w) ->
  shape df = [nrows x; m] -> (forall r i, (r < nrows x)%nat -> (i < m)%nat -> df.[r, i] = G i (fun k => x.[r, k])) ->
  exists ws' e V, ss_compute eigh argsort lstsq norm2 det None None (Some df) (Some w) "AS" "EVG" 0 ws = (Ok tt, ws') /\
    s_eigenvals (snd ws') = Some e /\ s_eigenvecs (snd ws') = Some V /\
    forall n, (n <= m)%nat -> let y := coords m (ent V) in
      exists h A, cmean n (m - n) (fun u => f (fun i => sumf m (fun j => V.[i, j] * u j))) h /\
        E (fun x => (f x - h (y x)) * (f x - h (y x))) A /\
        A <= sumf (m - n) (fun j => e.[(n + j)%nat, 0%nat]) /\
        forall N q B, is_poly n N q -> E (fun x => (f x - q (y x)) * (f x - q (y x))) B -> A <= B.
Proof.
  intros eigh eig argsort lstsq norm2 det Gn U l D f G x w df ws HE HET HI HIT HA HN HD m E Hm HL Pf Hdeg HG H Sd Hdf.
  assert (PG : forall i, (i < m)%nat -> is_poly m (pred D) (G i)) by (intros i Hi; apply (pd_poly m D f i); auto).
  assert (Hd1 : forall k, (k < m)%nat -> (pred D < Z.to_nat (nth k l 0%Z))%nat).
  { intros k Hk. specialize (Hdeg k Hk). assert (1 <= nth k l 0)%Z; [|lia].
    assert (Q := proj1 (Forall_forall _ _) HL (nth k l 0%Z) (nth_In l 0%Z Hk)). simpl in Q. lia. }
  destruct (C84_gaussian_subspace eigh eig argsort lstsq norm2 det Gn U l (pred D) G x w df ws HE HET HI HIT HA HN HD Hm HL Hd1 PG H Sd Hdf)
    as (ws' & e & V & EC & Ee & EV & _ & _ & HO & HS & _).
  exists ws', e, V. split; [exact EC|]. split; [exact Ee|]. split; [exact EV|]. intros n Hn y.
  destruct (cmean_exists (m - n) n D (fun u => f (lmap m (ent V) u))) as (h & C & Ph).
  { replace (n + (m - n))%nat with m by lia. apply (is_poly_comp m m D f (ent V) Pf). }
  assert (PF : is_poly m D (fun x => f x + -1 * h (y x))) by (apply is_poly_plus; auto; apply is_poly_scal, (coords_poly m n); auto).
  destruct (ex_poly _ _ _ (is_poly_mult _ _ _ _ _ PF PF)) as (A & HA0).
  assert (HA1 : E (fun x => (f x - h (y x)) * (f x - h (y x))) A) by (eapply ex_ext; [|exact HA0]; intros; cbv beta; ring).
  exists h, A. split; [exact C|]. split; [exact HA1|]. split.
  - apply (frame_bound m n D f G (ent V) h A (fun j => e.[(n + j)%nat, 0%nat]) HO Hn Pf HG C HA1). intros j Hj. apply HS. fold m. lia.
  - intros N q B Pq HB. exact (frame_best m n D N f (ent V) h q A B HO Hn Pf Pq C HA1 HB).
Qed.
Print Assumptions C85_active_variables.

(** the same for any other orthonormal directions: eps is the distance of their
    first n from the first n eigenvectors *)
Theorem C85_other_directions : forall eigh eig argsort lstsq norm2 det (Gn : gen) (U : Type) l D f (G : nat -> (nat -> R) -> R) x w df ptype nboot (ws ws' : world Gn U (nd R) * subspaces),
  eigh_contract eigh -> eig_contract eig -> eig_total eig -> argsort_contract argsort -> norm2_contract norm2 -> det_contract det ->
  let m := List.length l in let E := mean_nd gaussian_mean m in
  Forall (fun n => 1 <= n <= 10 ^ 24)%Z l ->
  is_poly m D f -> (forall k, (k < m)%nat -> (D <= Z.to_nat (nth k l 0%Z))%nat) -> (forall i, (i < m)%nat -> pd i f (G i)) ->
  gauss_hermite eig argsort (NList l) = Ok (x, w) ->
  shape df = [nrows x; m] -> (forall r i, (r < nrows x)%nat -> (i < m)%nat -> df.[r, i] = G i (fun k => x.[r, k])) ->
  ss_compute eigh argsort lstsq norm2 det None None (Some df) (Some w) "AS" ptype nboot ws = (Ok tt, ws') ->
  exists e V, s_eigenvals (snd ws') = Some e /\ s_eigenvecs (snd ws') = Some V /\
    forall n (Vh : nat -> nat -> R) eps h A, (1 <= n < m)%nat -> orthonormal m m Vh ->
      is_norm2 n (m - n) (fun a b => sumf m (fun i => V.[i, a] * Vh i (n + b)%nat)) eps ->
      cmean n (m - n) (fun u => f (fun i => sumf m (fun j => Vh i j * u j))) h ->
      E (fun x => (f x - h (coords m Vh x)) * (f x - h (coords m Vh x))) A ->
      A <= eps * eps * sumf n (fun i => e.[i, 0%nat]) + sumf (m - n) (fun j => e.[(n + j)%nat, 0%nat]) /\
      sqrt A <= sqrt (sumf n (fun i => e.[i, 0%nat])) * eps + sqrt (sumf (m - n) (fun j => e.[(n + j)%nat, 0%nat])).
Proof.
  intros eigh eig argsort lstsq norm2 det Gn U l D f G x w df ptype nboot ws ws' HE HI HIT HA HN HD m E HL Pf Hdeg HG H Sd Hdf EC.
  assert (PG : forall i, (i < m)%nat -> is_poly m (pred D) (G i)) by (intros i Hi; apply (pd_poly m D f i); auto).
  assert (Hd1 : forall k, (k < m)%nat -> (pred D < Z.to_nat (nth k l 0%Z))%nat).
  { intros k Hk. specialize (Hdeg k Hk). assert (1 <= nth k l 0)%Z; [|lia].
    assert (Q := proj1 (Forall_forall _ _) HL (nth k l 0%Z) (nth_In l 0%Z Hk)). simpl in Q. lia. }
  destruct (stored_pairs eigh eig argsort lstsq norm2 det Gn U l (pred D) G x w df ptype nboot ws ws' HE HI HIT HA HN HD HL Hd1 PG H Sd Hdf EC) as (e & V & Ee & EV & _ & HO & He & HC).
  exists e, V. split; [exact Ee|]. split; [exact EV|]. intros n Vh eps h A Hn HVh Hep C HA1.
  assert (B := frame_bound m n D f G Vh h A _ HVh ltac:(lia) Pf HG C HA1 (fun j Hj => slope_mean m G (fun k => e.[k, 0%nat]) (ent V) HC (fun i => Vh i (n + j)%nat))).
  assert (B2 := perturbed_bound m n (fun k => e.[k, 0%nat]) (ent V) Vh eps HO HVh ltac:(lia) He (fun _ _ => Hep)). cbv beta in B, B2.
  assert (B3 := Rle_trans _ _ _ B B2). split; [exact B3|]. apply sqrt_bound; auto.
  - apply Hep.
  - apply sumf_nonneg. intros; apply He; lia.
  - apply sumf_nonneg. intros; apply He; lia.
Qed.
Print Assumptions C85_other_directions.

(** what errbnd_partition minimises: sub_br holds the mean over the bootstrap
    replicates of the distance of their directions from the stored ones.  The
    mean over the replicates of the root-mean-square error made by averaging f
    over the replicate's inactive variables is at most that quantity. *)
Theorem C85_error_estimate : forall eigh eig argsort lstsq norm2 det (Gn : gen) (U : Type) l D f (G : nat -> (nat -> R) -> R) x w df ptype nboot (ws ws' : world Gn U (nd R) * subspaces),
  eigh_contract eigh -> eig_contract eig -> eig_total eig -> argsort_contract argsort -> norm2_contract norm2 -> det_contract det ->
  let m := List.length l in let E := mean_nd gaussian_mean m in
  Forall (fun n => 1 <= n <= 10 ^ 24)%Z l ->
  is_poly m D f -> (forall k, (k < m)%nat -> (D <= Z.to_nat (nth k l 0%Z))%nat) -> (forall i, (i < m)%nat -> pd i f (G i)) ->
  gauss_hermite eig argsort (NList l) = Ok (x, w) ->
  shape df = [nrows x; m] -> (forall r i, (r < nrows x)%nat -> (i < m)%nat -> df.[r, i] = G i (fun k => x.[r, k])) ->
  (0 < nboot)%Z -> ss_compute eigh argsort lstsq norm2 det None None (Some df) (Some w) "AS" ptype nboot ws = (Ok tt, ws') ->
  exists e sub_br (Vb : nat -> nd R), s_eigenvals (snd ws') = Some e /\ s_sub_br (snd ws') = Some sub_br /\
    (forall i, (i < Z.to_nat nboot)%nat -> orthonormal m m (ent (Vb i)) /\
       exists ind df0 w0 e0, List.length ind = nrows w /\ rows_of df ind df0 /\ rows_of w ind w0 /\ active_subspace eigh argsort df0 w0 = Ok (e0, Vb i)) /\
    let bound := fun n => sqrt (sumf n (fun i => e.[i, 0%nat])) * sub_br.[(n - 1)%nat, 1%nat] + sqrt (sumf (m - n) (fun j => e.[(n + j)%nat, 0%nat])) in
    (forall n (h : nat -> (nat -> R) -> R) (A : nat -> R), (1 <= n < m)%nat ->
       (forall i, (i < Z.to_nat nboot)%nat ->
          cmean n (m - n) (fun u => f (fun a => sumf m (fun j => (Vb i).[a, j] * u j))) (h i) /\
          E (fun x => (f x - h i (coords m (ent (Vb i)) x)) * (f x - h i (coords m (ent (Vb i)) x))) (A i)) ->
       sumf (Z.to_nat nboot) (fun i => sqrt (A i)) / INR (Z.to_nat nboot) <= bound n) /\
    (ptype = "RS"%string -> exists n W1, s_W1 (snd ws') = Some W1 /\ shape W1 = [m; n] /\ (1 <= n < m)%nat /\ forall q, (1 <= q < m)%nat -> bound n <= bound q).
Proof.
  intros eigh eig argsort lstsq norm2 det Gn U l D f G x w df ptype nboot ws ws' HE HI HIT HA HN HD m E HL Pf Hdeg HG H Sd Hdf Hb EC.
  destruct (C85_other_directions eigh eig argsort lstsq norm2 det Gn U l D f G x w df ptype nboot ws ws' HE HI HIT HA HN HD HL Pf Hdeg HG H Sd Hdf EC) as (e & V & Ee & EV & HP).
  assert (PG : forall i, (i < m)%nat -> is_poly m (pred D) (G i)) by (intros i Hi; apply (pd_poly m D f i); auto).
  assert (Hd1 : forall k, (k < m)%nat -> (pred D < Z.to_nat (nth k l 0%Z))%nat).
  { intros k Hk. specialize (Hdeg k Hk). assert (1 <= nth k l 0)%Z; [|lia].
    assert (Q := proj1 (Forall_forall _ _) HL (nth k l 0%Z) (nth_In l 0%Z Hk)). simpl in Q. lia. }
  destruct (stored_pairs eigh eig argsort lstsq norm2 det Gn U l (pred D) G x w df ptype nboot ws ws' HE HI HIT HA HN HD HL Hd1 PG H Sd Hdf EC) as (e1 & V1 & Ee1 & EV1 & SV & HO & _).
  fold m in SV, HO. rewrite EV in EV1. inversion EV1; subst V1. clear Ee1 EV1 e1.
  destruct (C19_compute_stores_ranges eigh argsort lstsq norm2 det Gn U None None (Some df) (Some w) "AS" ptype nboot ws ws' HE HA EC) as (_ & CS).
  destruct (CS Hb) as (M & m0 & e2 & V2 & e_br & sub_br & li_F & w1 & w2 & _ & _ & Esb & Ee2 & EV2 & BR).
  rewrite Ee in Ee2. rewrite EV in EV2. inversion Ee2; subst e2. inversion EV2; subst V2. clear Ee2 EV2.
  assert (Nb : (1 <= Z.to_nat nboot)%nat) by lia.
  destruct (C19_bootstrap_ranges eigh argsort lstsq norm2 det Gn U "AS" e V None None (Some df) w (Z.to_nat nboot) w1 e_br sub_br li_F w2 m HE HA HN HD Nb SV HO ltac:(unfold ncols; now rewrite Sd) BR)
    as (_ & _ & _ & eb & Vb & dist & RP & DS & _ & SB & _).
  assert (RV : forall i, (i < Z.to_nat nboot)%nat -> orthonormal m m (ent (Vb i)) /\
       exists ind df0 w0 e0, List.length ind = nrows w /\ rows_of df ind df0 /\ rows_of w ind w0 /\ active_subspace eigh argsort df0 w0 = Ok (e0, Vb i)).
  { intros i Hi. destruct (RP i Hi) as (ind & X0 & f0 & df0 & w0 & wa & wb & LI & _ & _ & OD & OW & HM).
    destruct OD as (d0 & -> & RD). destruct (ssmethod_ok eigh argsort lstsq HE HA _ _ _ _ _ _ _ _ _ HM) as (k & C & lam & MD & L).
    unfold method_dim in MD. simpl in MD. destruct MD as (d & M' & Q & Sd0). inversion Q; subst d.
    destruct RD as (r & c & S1 & S2 & R3). rewrite Sd in S1. inversion S1; subst r c. rewrite S2 in Sd0. inversion Sd0; subst k.
    split; [apply (es_orth _ _ _ _ _ L)|]. unfold ssmethod in HM. simpl in HM. unfold mlift in HM.
    destruct (active_subspace eigh argsort d0 w0) as [[e0 V0]|] eqn:EA; [|discriminate]. inversion HM; subst V0 e0.
    exists ind, d0, w0, (eb i). split; [exact LI|]. split; [exists (nrows x), m; auto|]. split; [exact OW|exact EA]. }
  exists e, sub_br, Vb. split; [exact Ee|]. split; [exact Esb|]. split; [exact RV|]. intros bound. split.
  - intros n h A Hn HH. assert (Np : 0 < INR (Z.to_nat nboot)) by (apply lt_0_INR; lia).
    set (S1 := sqrt (sumf n (fun i => e.[i, 0%nat]))) in *. set (S2 := sqrt (sumf (m - n) (fun j => e.[(n + j)%nat, 0%nat]))) in *.
    destruct (SB (n - 1)%nat ltac:(lia)) as (_ & _ & _ & SM & _).
    assert (L : sumf (Z.to_nat nboot) (fun i => sqrt (A i)) <= sumf (Z.to_nat nboot) (fun i => S1 * dist i (n - 1)%nat + S2)).
    { apply sumf_le. intros i Hi. destruct (HH i Hi) as (C & HEi). destruct (RV i Hi) as (OV & _).
      assert (Q := DS i (n - 1)%nat Hi ltac:(lia)). replace (n - 1 + 1)%nat with n in Q by lia.
      destruct (HP n (ent (Vb i)) (dist i (n - 1)%nat) (h i) (A i) Hn OV Q C HEi) as (_ & B). exact B. }
    rewrite sumf_plus, sumf_scal_l, <- SM, sumf_const in L.
    apply (Rmult_le_reg_r (INR (Z.to_nat nboot))); [exact Np|]. unfold bound. fold S1 S2. unfold Rdiv. rewrite Rmult_assoc, Rinv_l by lra. lra.
  - intros ->.
    destruct (C53_compute eigh argsort lstsq norm2 det Gn U None None (Some df) (Some w) "AS" "RS" nboot ws ws' HE HA HN HD ltac:(intros a b Q; discriminate) EC)
      as (M' & m' & e3 & V3 & n & W1 & w3 & Sd' & _ & Ee3 & _ & EW & _ & _ & SW & _ & _ & CR).
    rewrite Ee in Ee3. inversion Ee3; subst e3. rewrite Sd in Sd'. inversion Sd'; subst m' M'. cbv zeta in CR.
    destruct CR as [(Q & _)|[(_ & sb & Esb' & FB)|(Q & _)]]; try discriminate. rewrite Esb in Esb'. inversion Esb'; subst sb.
    exists n, W1. split; [exact EW|]. split; [exact SW|]. destruct FB as (F1 & F2 & _). split; [lia|]. intros q Hq. apply Rnot_lt_le. apply (F2 q ltac:(lia)).
Qed.
Print Assumptions C85_error_estimate.

(** f(x, y) = x^2 + x y, two points in each direction: the variance of f is at
    most the sum of the eigenvalues, 6 (it is 3) *)
Definition f84 (y : nat -> R) : R := y 0%nat * y 0%nat + y 0%nat * y 1%nat.
Lemma f84_poly : is_poly 2 2 f84.
Proof. unfold f84. apply is_poly_plus; apply (is_poly_mult 2 1 1); apply is_poly_var; lia. Qed.
Lemma f84_pd : forall i, (i < 2)%nat -> pd i f84 (G84 i).
Proof.
  intros [|[|i]] Hi y; try lia; unfold f84, G84, upd; simpl.
  - eapply D_eq; [apply D_plus; apply D_mult; try apply D_id; apply D_const|]. cbv beta. ring.
  - eapply D_eq; [apply D_plus; apply D_mult; try apply D_id; apply D_const|]. cbv beta. ring.
Qed.
Example C85_case : exists x w df ws' h A, gauss_hermite eigh_ref argsort_ref (NList [2; 2]%Z) = Ok (x, w) /\
  ss_compute eigh_ref argsort_ref lstsq_ref norm2_ref det_ref None None (Some df) (Some w) "AS" "EVG" 0 (toy_world (L := nd R) tt, subs_new) = (Ok tt, ws') /\
  (exists c, forall y, h y = c) /\ mean_nd gaussian_mean 2 (fun y => (f84 y - h y) * (f84 y - h y)) A /\ A <= 6.
Proof.
  destruct (C31_gauss_hermite_tensor eigh_ref argsort_ref [2; 2]%Z eig_ref_contract eig_ref_total argsort_ref_contract ltac:(repeat constructor; lia)) as (x & w & E & _).
  set (df := mk2 (nrows x) 2 (fun r i => G84 i (fun k => x.[r, k]))).
  assert (HL : Forall (fun n => 1 <= n <= 10 ^ 24)%Z [2; 2]%Z) by (repeat constructor; lia).
  assert (HD : forall k, (k < 2)%nat -> (2 <= Z.to_nat (nth k [2; 2]%Z 0%Z))%nat) by (intros [|[|k]] Hk; simpl; lia).
  destruct (C85_active_variables eigh_ref eigh_ref argsort_ref lstsq_ref norm2_ref det_ref toy_gen unit [2; 2]%Z 2 f84 G84 x w df (toy_world (L := nd R) tt, subs_new)
    eigh_ref_contract eigh_ref_total eig_ref_contract eig_ref_total argsort_ref_contract norm2_ref_contract det_ref_contract ltac:(simpl; lia) HL f84_poly HD f84_pd E eq_refl ltac:(intros; reflexivity))
    as (ws' & e & V & EC & Ee & EV & HB).
  destruct (HB 0%nat ltac:(simpl; lia)) as (h & A & C & HA & L & _).
  assert (Ph : is_poly 0 2 h) by (apply (cmean_poly 2 0 2 (fun u => f84 (fun i => sumf 2 (fun j => V.[i, j] * u j)))); [apply (is_poly_comp 2 2 2 f84 (ent V) f84_poly)|exact C]).
  assert (Hc : forall y z, h y = h z) by (intros; apply (poly_dep 0 2); auto; intros; lia).
  exists x, w, df, ws', h, A. split; [exact E|]. split; [exact EC|]. split; [exists (h (fun _ => 0)); intros; apply Hc|]. split.
  { eapply ex_ext; [|exact HA]. intros y. cbv beta. now rewrite (Hc (coords (length [2%Z; 2%Z]) (ent V) y) y). }
  destruct (stored_pairs eigh_ref eigh_ref argsort_ref lstsq_ref norm2_ref det_ref toy_gen unit [2; 2]%Z 1 G84 x w df "EVG" 0 _ ws'
    eigh_ref_contract eig_ref_contract eig_ref_total argsort_ref_contract norm2_ref_contract det_ref_contract HL ltac:(intros k Hk; specialize (HD k Hk); lia) G84_poly E eq_refl ltac:(intros; reflexivity) EC)
    as (e1 & V1 & Ee1 & EV1 & _ & HO & _ & HC).
  rewrite Ee in Ee1. rewrite EV in EV1. inversion Ee1; subst e1. inversion EV1; subst V1.
  destruct G84_means as (A' & B').
  assert (A1 := ex_unique _ _ _ _ (HC 0%nat 0%nat ltac:(simpl; lia) ltac:(simpl; lia)) A'). assert (B1 := ex_unique _ _ _ _ (HC 1%nat 1%nat ltac:(simpl; lia) ltac:(simpl; lia)) B').
  assert (O0 := HO 0%nat 0%nat ltac:(simpl; lia) ltac:(simpl; lia)). assert (O1 := HO 1%nat 1%nat ltac:(simpl; lia) ltac:(simpl; lia)).
  rewrite kd_same in O0, O1. unfold ent in *. cbn [sumf List.length] in A1, B1, O0, O1. cbn [sumf List.length Nat.sub Nat.add] in L.
  assert (P0 := f_equal (Rmult (e.[0%nat, 0%nat])) O0). assert (P1 := f_equal (Rmult (e.[1%nat, 0%nat])) O1). cbv beta in P0, P1. lra.
Qed.
(** the hypotheses of the estimate are met with two replicates *)
Example C85_boot_case : exists x w df ws', gauss_hermite eigh_ref argsort_ref (NList [2; 2]%Z) = Ok (x, w) /\
  ss_compute eigh_ref argsort_ref lstsq_ref norm2_ref det_ref None None (Some df) (Some w) "AS" "RS" 2 (toy_world (L := nd R) tt, subs_new) = (Ok tt, ws') /\
  shape df = [nrows x; 2%nat] /\ forall r i, (r < nrows x)%nat -> (i < 2)%nat -> df.[r, i] = G84 i (fun k => x.[r, k]).
Proof.
  destruct (C31_gauss_hermite_tensor eigh_ref argsort_ref [2; 2]%Z eig_ref_contract eig_ref_total argsort_ref_contract ltac:(repeat constructor; lia)) as (x & w & E & Sx & Sw & _).
  set (df := mk2 4 2 (fun r i => G84 i (fun k => x.[r, k]))).
  destruct (C53_gradient_method_returns eigh_ref argsort_ref lstsq_ref norm2_ref det_ref toy_gen unit 4 2 df (Some w) "RS" 2 (toy_world (L := nd R) tt, subs_new)
    eigh_ref_contract argsort_ref_contract eigh_ref_total norm2_ref_contract det_ref_contract ltac:(lia) ltac:(lia) eq_refl Sw (or_intror (conj (or_introl eq_refl) Z.lt_0_2))) as (ws' & EC).
  exists x, w, df, ws'. split; [exact E|]. split; [exact EC|]. unfold nrows. rewrite Sx. split; [reflexivity|]. intros; reflexivity.
Qed.
