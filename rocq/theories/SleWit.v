(** * Concrete solver histories: witnesses for examples and refutations. *)

From Coq Require Import Reals QArith Lra.
From Coq Require Import Floats.SpecFloat.
From Verif Require Import Base Targets Matrix Sparse Sle Logic MatrixFacts MatrixOps SpecMatrix MatrixHist MatrixWit
  SparseFacts SpecSparse SparseHist SparseWit SpecSle SleHist RealSum.
From Verif Require GeReal GsHist CgHist.
Local Open Scope nat_scope.

(** running a history with its argument checks *)
Definition hallowedb {tg} (priv : nat -> bool) (hp : heap tg) (o : hop tg) : bool :=
  match o with
  | HM o => margs_okb (hm hp) o && match o with MSwap t _ _ => negb (priv t) | _ => true end
  | HS o => negb (is_destroy o)
  | HSolve (SleGe g) _ _ _ _ _ => negb (priv (ge_a g))
  | _ => true
  end.
Fixpoint hrunc {tg} (priv : nat -> bool) (hp : heap tg) (os : list (hop tg)) : option (heap tg) :=
  match os with
  | [] => Some hp
  | o :: r => if hallowedb priv hp o
              then match hstep hp o with Ok hp' => hrunc priv hp' r | _ => None end else None
  end.
Lemma hrunc_reach {tg} priv os : forall hp hp' : heap tg,
  hreach priv hp -> hrunc priv hp os = Some hp' -> hreach priv hp'.
Proof.
  induction os as [|o os IH]; cbn [hrunc]; intros hp hp' H E; [now inversion E; subst|].
  destruct (hallowedb priv hp o) eqn:A; [|discriminate].
  destruct (hstep hp o) as [hp1| | |] eqn:E1; try discriminate.
  eapply IH; [|exact E]. eapply hreach_step; [exact H| |exact E1].
  destruct o as [o|o|s|s]; cbn in A |- *; auto.
  - apply andb_true_iff in A. destruct A as [A1 A2]. split.
    + destruct o; cbn in *; auto.
      * now apply Nat.leb_le.
      * apply andb_true_iff in A1. destruct A1. split; now apply Nat.ltb_lt.
    + intros t a b ->. now apply negb_true_iff.
  - now apply negb_true_iff.
  - destruct s; auto. now apply negb_true_iff.
Qed.
Definition hafter {tg} priv (os : list (hop tg)) : heap tg :=
  match hrunc priv hfresh os with Some hp => hp | None => hfresh end.
Lemma hafter_reach {tg} priv (os : list (hop tg)) : hreach priv (hafter priv os).
Proof.
  unfold hafter. destruct (hrunc priv hfresh os) eqn:E; [|constructor].
  eapply hrunc_reach; [constructor|exact E].
Qed.

(** the objects: J = sparse 0; W, right, limits, result, previous = dense 0 - 4 *)
Definition geW : ge_solver := {| ge_a := 10; ge_M := 11; ge_reg := 5 |}.
Definition gsW {tg} (k : nat) (d : cell tg) : gs_solver tg := mkGs 12 6 k d.
Definition cgW {tg} (k : nat) (e1 e2 : cell tg) : cg_solver tg :=
  {| cg_mreg0 := 20; cg_mreg1 := 21; cg_Ap := 22; cg_x := 23; cg_r := 24; cg_p := 25;
     cg_max_iterations := k; cg_max_error := e1; cg_min_error := e2 |}.
Definition privW (id : nat) : bool := Nat.eqb id 22 || Nat.eqb id 24 || Nat.eqb id 25.

Lemma geW_names : ge_names geW 0 0 1 3.
Proof. split; [|discriminate]. cbn. repeat constructor; cbn; intuition discriminate. Qed.
Lemma gsW_names {tg} k (d : cell tg) : gs_names (gsW k d) 0 0 1 3.
Proof. split; [|discriminate]. cbn. repeat constructor; cbn; intuition discriminate. Qed.
Lemma gsW_names_limits {tg} k (d : cell tg) : gs_names_limits (gsW k d) 0 0 1 2 3.
Proof. split; [|discriminate]. cbn. repeat constructor; cbn; intuition discriminate. Qed.
Lemma cgW_names {tg} k (d e : cell tg) p : p < 20 -> cg_names (cgW k d e) 0 1 3 (Some p).
Proof.
  intros Hp. split; [cbn; repeat constructor; cbn; intuition discriminate|].
  intros q [= <-]. cbn. intuition lia.
Qed.
Lemma cgW_private {tg} k (d e : cell tg) : cg_private (cgW k d e) privW.
Proof. repeat split. Qed.

(** ** a system over the reals

    two bodies, two constraints; J and the vectors have held other contents
    before, the result has another size *)
Definition nums {tg} (l : list Z) : list (cell tg) := map cofZ l.
Definition hist2 {tg} : list (hop tg) :=
  map HS ([SInit 0 12 4] ++ row3 0 0 1 3 9 9 9 ++ row3 0 1 0 2 8 8 8) ++
  map HS ([SInit 0 6 2] ++ row3 0 0 0 0 1 0 0 ++ row3 0 0 1 1 (-1) 0 0 ++ row3 0 1 0 1 1 2 0) ++
  [ HM (MInitVal 0 4 4 (cofZ 9)); HM (MSwap 0 1 3); HM (MInit0 0 1 6); HM (MLoad 0 (nums [1; 1; 1; 1; 1; 1]%Z));
    HM (MInit0 1 1 2); HM (MLoad 1 (nums [3; 4]%Z)); HM (MInit0 2 2 2); HM (MLoad 2 (nums [0; 1; -5; 10]%Z));
    HM (MInitVal 3 1 5 (cofZ 7)); HM (MInit0 4 1 2); HM (MLoad 4 (nums [100; -100]%Z)) ].
Definition hp2 : heap (RT true) := hafter privW hist2.
Definition blk2 (r e : nat) : Z := nth (r * 2 + e) [0; 1; 1; 255]%Z 255%Z.
Definition v2 (r e k : nat) : Z := nth (r * 6 + e * 3 + k) [1; 0; 0; -1; 0; 0; 1; 2; 0; 0; 0; 0]%Z 0%Z.
Definition D2 (r c : nat) : R := row_major 6 [1; 0; 0; -1; 0; 0;  0; 0; 0; 1; 2; 0]%Z r c.
Definition w2 (r : nat) : R := 1%R.
Definition b2 (r : nat) : R := row_major 1 [3; 4]%Z r 0.
Definition lo2 (r : nat) : R := row_major 1 [0; -5]%Z r 0.
Definition hi2 (r : nat) : R := row_major 1 [1; 10]%Z r 0.
Definition x2 (r : nat) : R := row_major 1 [100; -100]%Z r 0.

Lemma hp2_reach : hreach privW hp2.
Proof. apply hafter_reach. Qed.
Lemma hp2_J : sp_shows 3 2 (hs hp2 0) 6 2 blk2 (fun r e k => Some (IZR (v2 r e k)) : cell (RT true)).
Proof.
  refine (conj eq_refl (conj eq_refl (conj _ _))).
  - intros r e Hr He. small r 2; small e 2; reflexivity.
  - intros r e k Hr He Hk N. small r 2; small e 2; (small k 3; first [reflexivity|exfalso; now apply N]).
Qed.
Ltac sumup := cbn; change (Pos.to_nat 1) with 1; cbv [Nat.eqb Nat.mul Nat.add]; lra.
Lemma inside2 : blocks_inside 3 2 6 2 blk2.
Proof. intros r e Hr He; small r 2; small e 2; cbn; lia. Qed.
Lemma hp2_system : systemR hp2 0 0 1 6 2 D2 w2 b2.
Proof.
  exists blk2, (fun r e k => IZR (v2 r e k)). split; [exact hp2_J|]. split; [exact inside2|]. split.
  - intros r c Hr Hc. small r 2; (small c 6; unfold D2, row_major; sumup).
  - split; (refine (conj eq_refl (conj eq_refl _)); intros r c Hr Hc).
    + small r 6; (small c 1; reflexivity).
    + small r 2; (small c 1; reflexivity).
Qed.
Lemma hp2_limits : limits_are (hm hp2) 2 2 (fun i => Some (lo2 i)) (fun i => Some (hi2 i)).
Proof. refine (conj eq_refl (conj eq_refl _)). intros r c Hr Hc. small r 2; (small c 2; reflexivity). Qed.
Lemma ordered2 : forall i, i < 2 -> (lo2 i <= hi2 i)%R.
Proof. intros i Hi. small i 2; unfold lo2, hi2, row_major; cbn; lra. Qed.
Lemma hp2_start : start_limits hp2 (Some 4) 3 2 (fun i => Some (x2 i)).
Proof.
  left. exists 4. split; [reflexivity|]. refine (conj eq_refl (conj eq_refl _)).
  intros r c Hr Hc. small r 2; (small c 1; reflexivity).
Qed.
Lemma hp2_start_cold : start_limits hp2 (Some 3) 3 2 (fun i => Some 0%R).
Proof.
  assert (E : m_h (hm hp2 3) = 5) by reflexivity.
  right. split; [intros p [= <-]; lia|]. right. split; [lia|reflexivity].
Qed.
Lemma hp2_start_plain : start_plain hp2 (Some 4) 3 2 (fun i => Some (x2 i)).
Proof.
  left. exists 4. split; [reflexivity|]. refine (conj eq_refl (conj eq_refl _)).
  intros r c Hr Hc. small r 2; (small c 1; reflexivity).
Qed.
Lemma hp2_start_cg : start_cg hp2 (Some 4) 2 (fun i => Some (x2 i)).
Proof.
  left. exists 4. split; [reflexivity|]. refine (conj eq_refl (conj eq_refl _)).
  intros r c Hr Hc. small r 2; (small c 1; reflexivity).
Qed.
(** A = (2 -1; -1 5) *)
Lemma posdef2 : positive_definite 2 (JWJt 6 D2 w2).
Proof.
  intros x (c & Hc & N). unfold dot, mulv, JWJt, D2, w2, row_major. cbn.
  set (a := x 0) in *. set (b := x 1) in *.
  assert (H : (0 < (a - b) * (a - b) + a * a + 4 * (b * b))%R).
  { pose proof (Rle_0_sqr (a - b)) as H1. pose proof (Rle_0_sqr a) as H2. pose proof (Rle_0_sqr b) as H3. unfold Rsqr in *.
    small c 2; fold a b in N; [assert (0 < a * a)%R by nra|assert (0 < b * b)%R by nra]; lra. }
  lra.
Qed.
Lemma nonsingular2 : nonsingular 2 (JWJt 6 D2 w2).
Proof. apply GeReal.posdef_nonsingular, posdef2. Qed.

(** the system matrix on its own, for the single sweeps *)
Definition ms2 : mats (RT true) :=
  after [ MInit0 0 2 2; MLoad 0 (rnum [2; -1; -1; 5]%Z); MInit0 1 1 2; MLoad 1 (rnum [3; 4]%Z);
          MInit0 2 2 2; MLoad 2 (rnum [0; 1; -5; 10]%Z); MInit0 3 1 2; MLoad 3 (rnum [1; -5]%Z);
          MInit0 4 1 2; MLoad 4 (rnum [1; 1]%Z) ].
Definition A2 (r c : nat) : R := row_major 2 [2; -1; -1; 5]%Z r c.
Definition y2 (r : nat) : R := row_major 1 [1; -5]%Z r 0.
(** the constrained solution: the first component sits at its upper limit *)
Definition z2 (r : nat) : R := row_major 1 [1; 1]%Z r 0.
Lemma ms2_reach : mreach false ms2.
Proof. apply after_reach. Qed.
Lemma ms2_shows :
  showsR ms2 0 2 2 A2 /\ showsR ms2 1 1 2 (fun r _ => b2 r) /\
  limits_are ms2 2 2 (fun i => Some (lo2 i)) (fun i => Some (hi2 i)) /\
  showsR ms2 3 1 2 (fun r _ => y2 r) /\ showsR ms2 4 1 2 (fun r _ => z2 r).
Proof.
  refine (conj _ (conj _ (conj _ (conj _ _))));
    (refine (conj eq_refl (conj eq_refl _)); intros r c Hr Hc; small r 2; (small c 2; first [reflexivity|exfalso; lia])).
Qed.
Lemma A2_symmetric : symmetric 2 A2.
Proof. intros r c Hr Hc. small r 2; (small c 2; reflexivity). Qed.
Lemma A2_diagonal : forall i, i < 2 -> (0 < A2 i i)%R.
Proof. intros i Hi. small i 2; unfold A2, row_major; cbn; lra. Qed.
Lemma y2_within : within 2 lo2 hi2 y2.
Proof. intros i Hi. small i 2; unfold lo2, hi2, y2, row_major; cbn; lra. Qed.
Lemma z2_solution : solves_limited 2 A2 lo2 hi2 b2 z2.
Proof.
  split; [intros i Hi; small i 2; unfold lo2, hi2, z2, row_major; cbn; lra|].
  intros i Hi. small i 2; unfold mulv, A2, lo2, hi2, z2, b2, row_major; cbn.
  - right; right; lra.
  - left; lra.
Qed.

(** ** an unsolvable system over the reals: the same constraint twice with
    different right hand sides *)
Definition hpS : heap (RT true) := hafter privW
  (map HS ([SInit 0 3 2] ++ row3 0 0 0 0 1 1 0 ++ row3 0 1 1 0 1 1 0) ++
   [ HM (MInitVal 0 1 3 (cofZ 1)); HM (MInit0 1 1 2); HM (MLoad 1 (nums [1; 0]%Z)) ]).
Definition blkS (r e : nat) : Z := nth (r * 2 + e) [0; 255; 255; 0]%Z 255%Z.
Definition vS (r e k : nat) : Z := nth k [1; 1; 0]%Z 0%Z.
Definition DS (r c : nat) : R := row_major 3 [1; 1; 0; 1; 1; 0]%Z r c.
Definition bS (r : nat) : R := row_major 1 [1; 0]%Z r 0.
Lemma hpS_reach : hreach privW hpS.
Proof. apply hafter_reach. Qed.
Lemma hpS_system : systemR hpS 0 0 1 3 2 DS w2 bS.
Proof.
  exists blkS, (fun r e k => IZR (vS r e k)). split.
  { refine (conj eq_refl (conj eq_refl (conj _ _))).
    - intros r e Hr He. small r 2; small e 2; reflexivity.
    - intros r e k Hr He Hk N. small r 2; small e 2; (small k 3; first [reflexivity|exfalso; now apply N]). }
  split; [intros r e Hr He; small r 2; small e 2; cbn; lia|]. split.
  - intros r c Hr Hc. small r 2; (small c 3; unfold DS, row_major; sumup).
  - split; (refine (conj eq_refl (conj eq_refl _)); intros r c Hr Hc).
    + small r 3; (small c 1; reflexivity).
    + small r 2; (small c 1; reflexivity).
Qed.
Lemma hpS_unsolvable : forall x, ~ solves 2 (JWJt 3 DS w2) x bS.
Proof.
  intros x H. pose proof (H 0 ltac:(lia)) as H0. pose proof (H 1 ltac:(lia)) as H1.
  unfold mulv, JWJt, DS, w2, bS, row_major in H0, H1. cbn in H0, H1. lra.
Qed.

(** ** binary64: systems with integer values *)

(** an integer system whose first row is zero: 0 * x = 1 *)
Definition histZ {tg} : list (hop tg) :=
  map HS ([SInit 0 3 1] ++ row3 0 0 0 0 0 0 0) ++
  [ HM (MInitVal 0 1 3 (cofZ 1)); HM (MInit0 1 1 1); HM (MLoad 1 (nums [1]%Z)) ].
Definition hpZ (dbg : bool) : heap (F64 dbg) := hafter privW histZ.
Definition blkZ (r e : nat) : Z := nth (r * 2 + e) [0; 255]%Z 255%Z.
Definition vZ (r e k : nat) : Z := 0%Z.
Definition DZ (r c : nat) : R := 0%R.
Definition wZ (r : nat) : Z := 1%Z.
Definition bZ (r : nat) : Z := nth r [1]%Z 0%Z.
Lemma hpZ_reach dbg : hreach privW (hpZ dbg).
Proof. exact (hafter_reach privW histZ). Qed.
Lemma hpZ_system dbg : system (hpZ dbg) 0 0 1 3 1 blkZ (fun r e k => cofZ (vZ r e k)) (fun r => cofZ (wZ r)) (fun r => cofZ (bZ r)).
Proof.
  split.
  { refine (conj eq_refl (conj eq_refl (conj _ _))).
    - intros r e Hr He. small r 1; small e 2; reflexivity.
    - intros r e k Hr He Hk N. small r 1; small e 2; (small k 3; first [reflexivity|exfalso; now apply N]). }
  split; [intros r e Hr He; small r 1; small e 2; cbn; lia|].
  split; (refine (conj eq_refl (conj eq_refl _)); intros r c Hr Hc).
  - small r 3; (small c 1; reflexivity).
  - small r 1; (small c 1; reflexivity).
Qed.
Lemma hpZ_sums : sums 3 2 3 1 blkZ (fun r e k => IZR (vZ r e k)) DZ.
Proof. intros r c Hr Hc. small r 1. small c 3; unfold DZ, vZ; sumup. Qed.
Lemma hpZ_unsolvable : forall x, ~ solves 1 (JWJt 3 DZ (fun i => IZR (wZ i))) x (fun i => IZR (bZ i)).
Proof. intros x H. specialize (H 0 ltac:(lia)). unfold mulv, JWJt, DZ in H. cbn in H. lra. Qed.

Definition solved {tg} (r : res (heap tg * bool)) (result i : nat) : res (bool * cell tg) :=
  let* (hp, ok) := r in let* x := mget (hm hp) result 0 i in Ok (ok, x).
Lemma solved_inv {tg} (r : res (heap tg * bool)) result i ok x :
  solved r result i = Ok (ok, x) -> exists hp, r = Ok (hp, ok) /\ mget (hm hp) result 0 i = Ok x.
Proof.
  unfold solved. destruct r as [[hp ok']| | |]; cbn; try discriminate.
  destruct (mget (hm hp) result 0 i) eqn:E; cbn; try discriminate. intros [= <- <-]. eauto.
Qed.
Lemma hpZ_ge : solved (ge_solve geW 0 0 1 4 3 (hpZ false)) 3 0 = Ok (true, Some (S754_infinity false)).
Proof. vm_compute. reflexivity. Qed.
Lemma hpZ_cg : solved (cg_solve (cgW 10 (clit 1 100) (clit 1 1000)) 0 0 1 (Some 4) 3 (hpZ true)) 3 0
  = Ok (true, Some (S754_infinity false)).
Proof. vm_compute. reflexivity. Qed.

(** ** a result that is not overwritten: no constraints, stale result *)
Definition hpE : heap (F64 true) := hafter privW
  [ HS (SInit 0 3 0); HM (MInitVal 0 1 3 (cofZ 1)); HM (MInit0 1 1 0); HM (MInit0 3 1 1); HM (MLoad 3 (nums [8]%Z)) ].
Lemma hpE_reach : hreach privW hpE.
Proof. exact (hafter_reach privW _). Qed.
Lemma hpE_system : system hpE 0 0 1 3 0 (fun _ _ => 0%Z) (fun _ _ _ => cofZ 0) (fun _ => cofZ 1) (fun _ => cofZ 0).
Proof.
  split; [refine (conj eq_refl (conj eq_refl (conj _ _))); intros; exfalso; lia|].
  split; [intros r e Hr; exfalso; lia|].
  split; (refine (conj eq_refl (conj eq_refl _)); intros r c Hr Hc; try (exfalso; lia)).
  small r 3; (small c 1; reflexivity).
Qed.
Definition height_after {tg} (r : res (heap tg * bool)) (result : nat) : res (bool * nat) :=
  let* (hp, ok) := r in Ok (ok, m_h (hm hp result)).
Lemma hpE_ge : height_after (ge_solve geW 0 0 1 4 3 hpE) 3 = Ok (true, 1).
Proof. vm_compute. reflexivity. Qed.
Lemma hpE_ge_not_same : ~ same_solution (ge_solve geW 0 0 1 4 3 hpE) (ge_solve geW 0 0 1 4 3 hpE) 3 3 0.
Proof.
  pose proof hpE_ge as E. unfold height_after in E. destruct (ge_solve geW 0 0 1 4 3 hpE) as [[hp ok]| | |]; try discriminate.
  cbn in E. injection E as _ E. intros (_ & x & (_ & H & _) & _). rewrite E in H. discriminate.
Qed.

(** ** binary64: NaN and infinities in J, W, right, the limits and the start *)
Definition nanF : cell (F64 true) := Some S754_nan.
Definition infF (s : bool) : cell (F64 true) := Some (S754_infinity s).
Definition hpN : heap (F64 true) := hafter privW
  (hist2 ++ [ HS (SSet 0 0 1 1 nanF); HM (MSet 0 0 0 (infF true)); HM (MSet 1 0 1 (infF false));
              HM (MSet 2 0 1 (infF true)); HM (MSet 2 1 1 (infF false)); HM (MSet 4 0 0 nanF) ]).
Definition vN (r e k : nat) : cell (F64 true) :=
  if Nat.eqb (r * 6 + e * 3 + k) 4 then nanF else cofZ (v2 r e k).
Definition wN (r : nat) : cell (F64 true) := if Nat.eqb r 0 then infF true else cofZ 1.
Definition bN (r : nat) : cell (F64 true) := if Nat.eqb r 0 then cofZ 3 else infF false.
Definition loN (r : nat) : spec_float := if Nat.eqb r 0 then f_ofZ 0 else S754_infinity true.
Definition hiN (r : nat) : spec_float := if Nat.eqb r 0 then f_ofZ 1 else S754_infinity false.
Definition xN (r : nat) : cell (F64 true) := if Nat.eqb r 0 then nanF else cofZ (-100).
Lemma hpN_reach : hreach privW hpN.
Proof. exact (hafter_reach privW _). Qed.
Lemma hpN_system : system hpN 0 0 1 6 2 blk2 vN wN bN.
Proof.
  split.
  { refine (conj eq_refl (conj eq_refl (conj _ _))).
    - intros r e Hr He. small r 2; small e 2; vm_compute; reflexivity.
    - intros r e k Hr He Hk N. small r 2; small e 2; (small k 3; first [exfalso; now apply N|vm_compute; reflexivity]). }
  split; [exact inside2|].
  split; (refine (conj eq_refl (conj eq_refl _)); intros r c Hr Hc).
  - small r 6; (small c 1; vm_compute; reflexivity).
  - small r 2; (small c 1; vm_compute; reflexivity).
Qed.
Lemma hpN_limits : limits_are (hm hpN) 2 2 (fun i => Some (loN i)) (fun i => Some (hiN i)).
Proof. refine (conj eq_refl (conj eq_refl _)). intros r c Hr Hc. small r 2; (small c 2; vm_compute; reflexivity). Qed.
Lemma orderedN : forall i, i < 2 -> SFleb (loN i) (hiN i) = true.
Proof. intros i Hi. small i 2; reflexivity. Qed.
Lemma hpN_shows4 : shows (hm hpN) 4 1 2 (fun r _ => xN r).
Proof. refine (conj eq_refl (conj eq_refl _)). intros r c Hr Hc. small r 2; (small c 1; vm_compute; reflexivity). Qed.
Lemma hpN_start : start_limits hpN (Some 4) 3 2 xN.
Proof. left. exists 4. split; [reflexivity|exact hpN_shows4]. Qed.
Lemma hpN_start_plain : start_plain hpN (Some 4) 3 2 xN.
Proof. left. exists 4. split; [reflexivity|exact hpN_shows4]. Qed.
Lemma hpN_start_cg : start_cg hpN (Some 4) 2 xN.
Proof. left. exists 4. split; [reflexivity|exact hpN_shows4]. Qed.
Lemma definedN : defined_system 6 2 blk2 vN wN bN.
Proof.
  refine (conj _ (conj _ _)).
  - intros r e k _ _ _ _. unfold vN, defined. destruct (_ =? _); discriminate.
  - intros i _. unfold wN, defined. destruct (_ =? _); discriminate.
  - intros i _. unfold bN, defined. destruct (_ =? _); discriminate.
Qed.
Lemma definedN_x : forall i, i < 2 -> defined (xN i).
Proof. intros i _. unfold xN, defined. destruct (_ =? _); discriminate. Qed.
Lemma F64_division dbg : total_division (F64 dbg).
Proof. intros x y. eexists. reflexivity. Qed.

(** ** plain Gauss-Seidel reports success on a vector that halves

    J has rows (1 -1 0) and (0 1 -1) on one body: A = (2 -1; -1 2), right = 0,
    start (100, 100); the first sweep gives (50, 25). *)
Definition hpH : heap (F64 true) := hafter privW
  (map HS ([SInit 0 3 2] ++ row3 0 0 0 0 1 (-1) 0 ++ row3 0 1 0 0 0 1 (-1)) ++
   [ HM (MInitVal 0 1 3 (cofZ 1)); HM (MInit0 1 1 2); HM (MInit0 3 1 2); HM (MLoad 3 (nums [100; 100]%Z)) ]).
Definition blkH (r e : nat) : Z := nth e [0; 255]%Z 255%Z.
Definition vH (r e k : nat) : Z := nth (r * 3 + k) [1; -1; 0; 0; 1; -1]%Z 0%Z.
Lemma hpH_reach : hreach privW hpH.
Proof. exact (hafter_reach privW _). Qed.
Lemma hpH_system : system hpH 0 0 1 3 2 blkH (fun r e k => cofZ (vH r e k)) (fun _ => cofZ 1) (fun _ => cofZ 0).
Proof.
  split.
  { refine (conj eq_refl (conj eq_refl (conj _ _))).
    - intros r e Hr He. small r 2; small e 2; reflexivity.
    - intros r e k Hr He Hk N. small r 2; small e 2; (small k 3; first [reflexivity|exfalso; now apply N]). }
  split; [intros r e Hr He; small r 2; small e 2; cbn; lia|].
  split; (refine (conj eq_refl (conj eq_refl _)); intros r c Hr Hc).
  - small r 3; (small c 1; reflexivity).
  - small r 2; (small c 1; reflexivity).
Qed.
Lemma hpH_start : start_plain hpH (Some 3) 3 2 (fun _ => cofZ 100).
Proof.
  left. exists 3. split; [reflexivity|]. refine (conj eq_refl (conj eq_refl _)).
  intros r c Hr Hc. small r 2; (small c 1; reflexivity).
Qed.
Lemma hpH_before : solved (gs_solve (gsW 0 (clit 1 10)) 0 0 1 (Some 3) 3 hpH) 3 0 = Ok (false, cofZ 100).
Proof. vm_compute. reflexivity. Qed.
Lemma hpH_after : solved (gs_solve (gsW 1 (clit 1 10)) 0 0 1 (Some 3) 3 hpH) 3 0 = Ok (true, cofZ 50).
Proof. vm_compute. reflexivity. Qed.

(** ** plain Gauss-Seidel with a fresh result object *)
Definition hpU : heap (F64 true) := hafter privW
  (map HS ([SInit 0 3 2] ++ row3 0 0 0 0 1 (-1) 0 ++ row3 0 1 0 0 0 1 (-1)) ++
   [ HM (MInitVal 0 1 3 (cofZ 1)); HM (MInit0 1 1 2) ]).
Lemma hpU_reach : hreach privW hpU.
Proof. exact (hafter_reach privW _). Qed.
Lemma hpU_system : system hpU 0 0 1 3 2 blkH (fun r e k => cofZ (vH r e k)) (fun _ => cofZ 1) (fun _ => cofZ 0).
Proof.
  split.
  { refine (conj eq_refl (conj eq_refl (conj _ _))).
    - intros r e Hr He. small r 2; small e 2; reflexivity.
    - intros r e k Hr He Hk N. small r 2; small e 2; (small k 3; first [reflexivity|exfalso; now apply N]). }
  split; [intros r e Hr He; small r 2; small e 2; cbn; lia|].
  split; (refine (conj eq_refl (conj eq_refl _)); intros r c Hr Hc).
  - small r 3; (small c 1; reflexivity).
  - small r 2; (small c 1; reflexivity).
Qed.
Lemma hpU_defined : defined_system (tg := F64 true) 3 2 blkH (fun r e k => cofZ (vH r e k)) (fun _ => cofZ 1) (fun _ => cofZ 0).
Proof. refine (conj _ (conj _ _)); intros; discriminate. Qed.
Lemma hpU_untouched : hm hpU 3 = hm hfresh 3.
Proof. reflexivity. Qed.
Definition is_ub {A} (r : res A) : bool := match r with UB => true | _ => false end.
Lemma hpU_is_ub : is_ub (gs_solve (gsW 1 (clit 1 10)) 0 0 1 (Some 3) 3 hpU) = true.
Proof. vm_compute. reflexivity. Qed.
Lemma hpU_ub : gs_solve (gsW 1 (clit 1 10)) 0 0 1 (Some 3) 3 hpU = UB.
Proof. generalize hpU_is_ub. destruct (gs_solve _ _ _ _ _ _ hpU); [discriminate..|reflexivity|discriminate]. Qed.

(** ** runs that end as the hypotheses of C20, C24 and C25 ask *)
Lemma hp2_gs_succeeds : exists k hp',
  gs_solve_limits (gsW k (Some (1 / 10)%R : cell (RT true))) 0 0 1 2 3 (Some 4) hp2 = Ok (hp', true).
Proof.
  assert (P : (0 < 1 / 10)%R) by lra.
  destruct (GsHist.gs_converges 6 2 D2 w2 b2 lo2 hi2 (1 / 10)%R posdef2 ordered2 P) as [N H].
  exists N. apply (H true privW hp2 12 6 N 0 0 1 2 (Some 4) 3 x2); auto using hp2_reach, hp2_system, hp2_limits, hp2_start.
  apply gsW_names_limits.
Qed.
Lemma hp2_cg_succeeds : exists hp',
  cg_solve (cgW 2 (Some 0%R : cell (RT true)) (Some 0%R : cell (RT true))) 0 0 1 (Some 4) 3 hp2 = Ok (hp', true).
Proof.
  apply (CgHist.cg_terminates true privW hp2 _ 0 0 1 (Some 4) 3 6 2 D2 w2 b2 x2 0%R 0%R);
    auto using hp2_reach, hp2_system, hp2_start_cg, cgW_private, posdef2.
  apply cgW_names. lia.
Qed.
Lemma hpN_gs_ends : exists hp' ok,
  gs_solve_limits (gsW 128 (clit 1 10) : gs_solver (F64 true)) 0 0 1 2 3 (Some 4) hpN = Ok (hp', ok).
Proof.
  destruct (GsHist.gs_limits_safe (tg := F64 true) privW hpN (gsW 128 (clit 1 10)) 0 0 1 2 (Some 4) 3 6 2 blk2 vN wN bN
    (fun i => Some (loN i)) (fun i => Some (hiN i)) xN hpN_reach (gsW_names_limits _ _) hpN_system hpN_limits hpN_start definedN)
    as (hp' & ok & y & E & _); auto using definedN_x, F64_division.
  - intros i _. split; discriminate.
  - discriminate.
  - eauto.
Qed.
