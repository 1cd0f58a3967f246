(** * A system on which Gauss-Seidel accepts a result, for the distance bound. *)

From Coq Require Import Reals Lra.
From Verif Require Import Base Targets Matrix Sparse Sle SpecMatrix SpecSparse SpecSle RealSum SleHist SpecNear.
From Verif Require GsNear.
From Verif Require Import MatrixWit SleWit.
Local Open Scope nat_scope.

Local Ltac small i := first [exfalso; lia|destruct i as [|i]; [|small i]].

(** the system of SleWit: A = (2 -1; -1 5), b = (3 4), limits [0, 1] and
    [-5, 10], least eigenvalue above 1; the solution is (1 1) *)
Lemma near_lam : forall v, (1 * Rsum 2 (fun i => v i * v i) <= dot 2 v (mulv 2 (JWJt 6 D2 w2) v))%R.
Proof.
  intros v. unfold dot, mulv, JWJt, D2, w2, row_major. cbn.
  set (a := v 0). set (b := v 1). pose proof (Rle_0_sqr (a - b)) as H1. pose proof (Rle_0_sqr b) as H3. unfold Rsqr in *. nra.
Qed.
Lemma near_solution : solves_limited 2 (JWJt 6 D2 w2) lo2 hi2 b2 z2.
Proof.
  split; [intros i Hi; small i; unfold lo2, hi2, z2, row_major; cbn; lra|].
  intros i Hi. small i; unfold mulv, JWJt, D2, w2, lo2, hi2, z2, b2, row_major; cbn; [right; right|left]; lra.
Qed.
Lemma near_diag : forall i, i < 2 -> (0 < JWJt 6 D2 w2 i i)%R.
Proof. apply (GsNear.lam_diag 2 (JWJt 6 D2 w2) 1); [lra|exact near_lam]. Qed.

(** so the default tolerance 1/10 leaves the accepted result this near *)
Lemma near_case : exists k hp' x',
  gs_solve_limits (gsW k (Some (1 / 10)%R : cell (RT true))) 0 0 1 2 3 (Some 4) hp2 = Ok (hp', true) /\
  showsR (hm hp') 3 1 2 (fun r _ => x' r) /\
  ((x' 0%nat - 1) * (x' 0%nat - 1) + (x' 1%nat - 1) * (x' 1%nat - 1) <=
    1 / 81 * (Rmax (1 / 1000) (Rabs (x' 1%nat)) * Rmax (1 / 1000) (Rabs (x' 1%nat))))%R.
Proof.
  destruct hp2_gs_succeeds as (k & hp' & E).
  destruct (GsNear.gs_distance true privW hp2 hp' _ 0 0 1 2 (Some 4) 3 6 2 D2 w2 b2 lo2 hi2 x2 (1 / 10)%R 1%R z2
    hp2_reach (gsW_names_limits k _) hp2_system hp2_limits hp2_start eq_refl) as (x' & Hs & Hle); auto using near_lam, near_solution; try lra.
  exists k, hp', x'. split; [exact E|]. split; [exact Hs|].
  assert (L1 : later 2 (JWJt 6 D2 w2) x' 1 = 0%R) by reflexivity.
  assert (L0 : later 2 (JWJt 6 D2 w2) x' 0 = Rmax (1 / 1000) (Rabs (x' 1%nat))).
  { unfold later. cbn [Nat.sub Nat.add Rsum].
    replace (JWJt 6 D2 w2 0 1) with (-1)%R by (unfold JWJt, D2, w2, row_major; cbn; ring).
    replace (Rabs (-1)) with 1%R by (rewrite Rabs_left; lra). ring. }
  cbn [Rsum] in Hle. rewrite L0, L1 in Hle. unfold z2, row_major in Hle. cbn in Hle.
  set (q := Rmax (1 / 1000) (Rabs (x' 1%nat))) in *. set (a := x' 0%nat) in *. set (b := x' 1%nat) in *.
  replace (1 / 10 / (1 - 1 / 10))%R with (1 / 9)%R in Hle by field. lra.
Qed.
