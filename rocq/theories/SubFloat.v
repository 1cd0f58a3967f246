(** * Dividing by one in binary64 changes nothing. *)

From Coq Require Import ZArith Lia Bool Zbool SpecFloat.
Local Open Scope Z_scope.

Lemma fexp64 e : fexp 53 1024 e = Z.max (e - 53) (-1074).
Proof. reflexivity. Qed.
(** ** number of digits *)
Lemma digits_log2 p : Z.pos (digits2_pos p) = Z.log2 (Z.pos p) + 1.
Proof.
  induction p as [p IH|p IH|]; cbn [digits2_pos]; rewrite ?Pos2Z.inj_succ; [| |reflexivity].
  - change (Z.pos p~1) with (2 * Z.pos p + 1). rewrite Z.log2_succ_double by lia. lia.
  - change (Z.pos p~0) with (2 * Z.pos p). rewrite Z.log2_double by lia. lia.
Qed.
Lemma Zdigits_log2 m : 0 < m -> Zdigits2 m = Z.log2 m + 1.
Proof. destruct m; try lia. intros _. apply digits_log2. Qed.
Lemma Zdigits_le a b : 0 <= a -> a <= b -> Zdigits2 a <= Zdigits2 b.
Proof.
  intros H L. destruct (Z.eq_dec a 0) as [->|N]; [destruct b; cbn; lia|]. rewrite !Zdigits_log2 by lia.
  pose proof (Z.log2_le_mono a b L). lia.
Qed.
(** ** shifting right *)
Lemma shr1_m r : 0 <= shr_m r -> shr_m (shr_1 r) = shr_m r / 2.
Proof.
  destruct r as [m a b]. cbn [shr_m]. intros H. destruct m as [|[p|p|]|]; cbn [shr_1 shr_m]; try lia; try reflexivity.
  - change (Z.pos p~1) with (2 * Z.pos p + 1). rewrite Z.mul_comm, Z.div_add_l by lia. cbn. lia.
  - change (Z.pos p~0) with (2 * Z.pos p). rewrite Z.mul_comm, Z.div_mul; lia.
Qed.
Lemma iter_plus {A} (f : A -> A) n m a : Nat.iter (n + m) f a = Nat.iter n f (Nat.iter m f a).
Proof. induction n as [|n IH]; [reflexivity|]. cbn [Nat.add Nat.iter nat_rect] in *. unfold Nat.iter in *. cbn [nat_rect]. now rewrite IH. Qed.
Lemma iter_nat p (r : shr_record) : iter_pos shr_1 p r = Nat.iter (Pos.to_nat p) shr_1 r.
Proof.
  revert r. induction p as [p IH|p IH|]; intros r; cbn [iter_pos].
  - rewrite !IH, Pos2Nat.inj_xI. change (shr_1 r) with (Nat.iter 1 shr_1 r). rewrite <- !iter_plus. f_equal. lia.
  - rewrite !IH, Pos2Nat.inj_xO. rewrite <- iter_plus. f_equal. lia.
  - reflexivity.
Qed.
Lemma shr_iter_m n r : 0 <= shr_m r -> shr_m (Nat.iter n shr_1 r) = shr_m r / 2 ^ Z.of_nat n.
Proof.
  intros H. induction n as [|n IH]; [cbn; now rewrite Z.div_1_r|]. change (Nat.iter (S n) shr_1 r) with (shr_1 (Nat.iter n shr_1 r)). rewrite shr1_m.
  - rewrite IH. rewrite Nat2Z.inj_succ, Z.pow_succ_r by lia. rewrite Z.div_div by (try apply Z.pow_nonzero; lia). f_equal. lia.
  - rewrite IH. apply Z.div_pos; [exact H|]. apply Z.pow_pos_nonneg; lia.
Qed.
Lemma of_loc_m m l : shr_m (shr_record_of_loc m l) = m.
Proof. destruct l as [|[| |]]; reflexivity. Qed.
Lemma shr_spec m l e n : 0 <= m -> 0 <= n -> shr_m (fst (shr (shr_record_of_loc m l) e n)) = m / 2 ^ n /\ snd (shr (shr_record_of_loc m l) e n) = e + n.
Proof.
  intros Hm Hn. destruct n as [|p|p]; cbn [shr fst snd]; [|split; [|reflexivity]|lia].
  - rewrite of_loc_m, Z.pow_0_r, Z.div_1_r. lia.
  - rewrite iter_nat, shr_iter_m by (now rewrite of_loc_m). rewrite of_loc_m, positive_nat_Z. reflexivity.
Qed.
Lemma digits_shift m n : 0 < m / 2 ^ n -> 0 <= n -> Zdigits2 (m / 2 ^ n) = Zdigits2 m - n.
Proof.
  intros H Hn. assert (Hm : 0 < m).
  { destruct (Z_lt_le_dec 0 m); [assumption|]. assert (m / 2 ^ n <= 0); [|lia]. apply Z.div_le_upper_bound; [apply Z.pow_pos_nonneg; lia|lia]. }
  rewrite !Zdigits_log2 by assumption. rewrite <- Z.shiftr_div_pow2 in * by assumption. rewrite Z.log2_shiftr by assumption.
  assert (n <= Z.log2 m); [|lia]. destruct (Z_le_gt_dec n (Z.log2 m)); [assumption|]. rewrite Z.shiftr_eq_0 in H; lia.
Qed.
(** ** a rounded number is a double *)
Definition ready m e := 0 <= m /\ e <= fexp 53 1024 (Zdigits2 m + e).
Lemma shr_ready m e l : ready m e -> let r := shr_fexp 53 1024 m e l in
  0 <= shr_m (fst r) /\ (0 < shr_m (fst r) -> fexp 53 1024 (Zdigits2 (shr_m (fst r)) + snd r) = snd r) /\ (shr_m (fst r) = 0 -> 0 < m -> snd r = -1074) /\ (m = 0 -> shr_m (fst r) = 0 /\ snd r = fexp 53 1024 e).
Proof.
  intros [Hm He] r. unfold r, shr_fexp. set (n := fexp 53 1024 (Zdigits2 m + e) - e). assert (Hn : 0 <= n) by (unfold n; lia).
  destruct (shr_spec m l e n Hm Hn) as [-> ->]. assert (P : 0 < 2 ^ n) by (apply Z.pow_pos_nonneg; lia).
  split; [apply Z.div_pos; assumption|]. split; [intros H; rewrite digits_shift by assumption; replace (Zdigits2 m - n + (e + n)) with (Zdigits2 m + e) by lia; unfold n; lia|]. split.
  - intros H0 H. apply Z.div_small_iff in H0; [|lia]. destruct H0 as [[_ H0]|]; [|lia]. unfold n in *. rewrite fexp64 in *.
    assert (Zdigits2 m <= Z.max (Zdigits2 m + e - 53) (-1074) - e); [|lia].
    rewrite Zdigits_log2 by assumption. rewrite Zdigits_log2 in H0 by assumption. apply Z.log2_lt_pow2 in H0; lia.
  - intros ->. split; [apply Z.div_0_l; lia|unfold n; cbn [Zdigits2]; rewrite Z.add_0_l; lia].
Qed.
Lemma round_bounds m l : 0 <= m -> m <= round_nearest_even m l <= m + 1.
Proof. intros H. destruct l as [|[| |]]; cbn [round_nearest_even]; try lia. destruct (Z.even m); lia. Qed.
Lemma round_valid s m e l : ready m e -> valid_binary 53 1024 (binary_round_aux 53 1024 s m e l) = true.
Proof.
  intros H. unfold binary_round_aux. destruct (shr_ready m e l H) as (A1 & A2 & A3 & A4). destruct (shr_fexp 53 1024 m e l) as [r1 e1] eqn:E1. cbn [fst snd] in *.
  set (m1 := round_nearest_even (shr_m r1) (loc_of_shr_record r1)). pose proof (round_bounds (shr_m r1) (loc_of_shr_record r1) A1) as B. fold m1 in B.
  assert (H1 : ready m1 e1).
  { split; [lia|]. destruct (Z.eq_dec (shr_m r1) 0) as [Z0|N].
    - destruct H as [Hm He]. destruct (Z.eq_dec m 0) as [M0|M0]; [destruct (A4 M0) as [_ X]|pose proof (A3 Z0 ltac:(lia)) as X].
      + rewrite M0 in He. cbn [Zdigits2] in He. rewrite Z.add_0_l in He. rewrite X. rewrite !fexp64 in *. lia.
      + rewrite X, fexp64. lia.
    - rewrite <- (A2 ltac:(lia)) at 1. pose proof (Zdigits_le (shr_m r1) m1 A1 ltac:(lia)). rewrite !fexp64. lia. }
  destruct (shr_ready m1 e1 loc_Exact H1) as (C1 & C2 & _). destruct (shr_fexp 53 1024 m1 e1 loc_Exact) as [r2 e2]. cbn [fst snd] in *.
  destruct (shr_m r2) as [|p|p]; [reflexivity| |reflexivity]. destruct (e2 <=? 1024 - 53) eqn:L; [|reflexivity]. cbn [valid_binary]. unfold bounded. rewrite L, andb_true_r.
  unfold canonical_mantissa. apply Zeq_is_eq_bool. exact (C2 eq_refl).
Qed.
Lemma div_core_ready m1 e1 m2 e2 q e l : SFdiv_core_binary 53 1024 (Z.pos m1) e1 (Z.pos m2) e2 = (q, e, l) -> ready q e.
Proof.
  unfold SFdiv_core_binary. set (f := fexp 53 1024 _). set (s := e1 - e2 - Z.min f (e1 - e2)). assert (Hs : 0 <= s) by (unfold s; lia).
  assert (EM : match s with Z0 => Z.pos m1 | Z.pos _ => Z.shiftl (Z.pos m1) s | Z.neg _ => 0 end = Z.pos m1 * 2 ^ s).
  { destruct s as [|p|p]; [now rewrite Z.pow_0_r, Z.mul_1_r|now apply Z.shiftl_mul_pow2|lia]. }
  rewrite EM. pose proof (Z_div_mod (Z.pos m1 * 2 ^ s) (Z.pos m2) ltac:(lia)) as D. destruct (Z.div_eucl (Z.pos m1 * 2 ^ s) (Z.pos m2)) as [q0 r0].
  intros E. injection E as <- <- _. destruct D as [D1 D2]. assert (P : 0 < 2 ^ s) by (apply Z.pow_pos_nonneg; lia).
  assert (Q : 0 <= q0) by nia. split; [exact Q|]. clear EM.
  assert (K : Zdigits2 (Z.pos m1) + s - Zdigits2 (Z.pos m2) <= Zdigits2 q0).
  { destruct (Z.eq_dec q0 0) as [->|N].
    - cbn [Zdigits2]. rewrite !digits_log2. assert (L : Z.pos m1 * 2 ^ s < Z.pos m2) by lia. pose proof (Z.log2_le_mono (Z.pos m1 * 2 ^ s) (Z.pos m2) ltac:(lia)) as X.
      rewrite Z.log2_mul_pow2 in X by lia. lia.
    - rewrite (Zdigits_log2 q0) by lia. cbn [Zdigits2]. rewrite !digits_log2. 
      assert (L : Z.pos m1 * 2 ^ s < 2 ^ (Z.log2 (Z.pos m2) + 1 + (Z.log2 q0 + 1))).
      { pose proof (Z.log2_spec (Z.pos m2) ltac:(lia)) as [_ U]. pose proof (Z.log2_spec q0 ltac:(lia)) as [_ V]. pose proof (Z.log2_nonneg (Z.pos m2)). pose proof (Z.log2_nonneg q0).
        rewrite Z.pow_add_r by lia. unfold Z.succ in *. nia. }
      apply Z.log2_lt_pow2 in L; [|nia]. rewrite Z.log2_mul_pow2 in L by lia. lia. }
  cbv zeta. unfold s in K. subst f. rewrite !fexp64 in *. lia.
Qed.
Theorem div_valid x y : valid_binary 53 1024 (SFdiv 53 1024 x y) = true.
Proof.
  destruct x as [s1|s1| |s1 m1 e1], y as [s2|s2| |s2 m2 e2]; cbn [SFdiv]; try reflexivity.
  destruct (SFdiv_core_binary 53 1024 (Z.pos m1) e1 (Z.pos m2) e2) as [[q e] l] eqn:E. apply round_valid. now apply (div_core_ready m1 e1 m2 e2 q e l).
Qed.
(** ** dividing a double by one *)
Lemma round_same s m e : bounded 53 1024 m e = true -> binary_round_aux 53 1024 s (Z.pos m) e loc_Exact = S754_finite s m e.
Proof.
  intros H. apply andb_prop in H. destruct H as [H1 H2]. apply Zeq_bool_eq in H1. unfold binary_round_aux.
  assert (E : shr_fexp 53 1024 (Z.pos m) e loc_Exact = (Build_shr_record (Z.pos m) false false, e)).
  { unfold shr_fexp. cbn [Zdigits2]. now rewrite H1, Z.sub_diag. }
  rewrite E. cbn [shr_m loc_of_shr_record round_nearest_even]. rewrite E. cbn [shr_m]. now rewrite H2.
Qed.
Lemma round_twice s m e : bounded 53 1024 m e = true -> binary_round_aux 53 1024 s (Z.pos m~0) (e - 1) loc_Exact = S754_finite s m e.
Proof.
  intros H. pose proof (round_same s m e H) as R. apply andb_prop in H. destruct H as [H1 H2]. apply Zeq_bool_eq in H1.
  assert (E : shr_fexp 53 1024 (Z.pos m~0) (e - 1) loc_Exact = (Build_shr_record (Z.pos m) false false, e)).
  { unfold shr_fexp. cbn [Zdigits2 digits2_pos]. rewrite Pos2Z.inj_succ. replace (Z.succ (Z.pos (digits2_pos m)) + (e - 1)) with (Z.pos (digits2_pos m) + e) by lia. rewrite H1.
    replace (e - (e - 1)) with 1 by lia. cbn [shr iter_pos shr_record_of_loc shr_1 orb]. now replace (e - 1 + 1) with e by lia. }
  unfold binary_round_aux in *. rewrite E. cbn [shr_m loc_of_shr_record round_nearest_even].
  assert (E' : shr_fexp 53 1024 (Z.pos m) e loc_Exact = (Build_shr_record (Z.pos m) false false, e)).
  { unfold shr_fexp. cbn [Zdigits2]. now rewrite H1, Z.sub_diag. }
  rewrite E'. cbn [shr_m]. now rewrite H2.
Qed.
Lemma core_one m e : bounded 53 1024 m e = true -> SFdiv_core_binary 53 1024 (Z.pos m) e 4503599627370496 (-52) = (Z.pos m, e, loc_Exact) \/
  SFdiv_core_binary 53 1024 (Z.pos m) e 4503599627370496 (-52) = (Z.pos m~0, e - 1, loc_Exact).
Proof.
  intros H. apply andb_prop in H. destruct H as [H1 _]. apply Zeq_bool_eq in H1. unfold SFdiv_core_binary. rewrite fexp64 in *.
  change (Zdigits2 4503599627370496) with 53. cbn [Zdigits2]. cbv zeta.
  set (f := Z.max (Z.pos (digits2_pos m) + e - (53 + -52) - 53) (-1074)).
  assert (F : f = e \/ f = e - 1) by (unfold f; lia).
  assert (D : forall k, Z.div_eucl (Z.pos k * 4503599627370496) 4503599627370496 = (Z.pos k, 0)).
  { intros k. pose proof (Z_div_mult (Z.pos k) 4503599627370496 ltac:(lia)) as A. pose proof (Z_mod_mult (Z.pos k) 4503599627370496) as B.
    unfold Z.div in A. unfold Z.modulo in B. destruct (Z.div_eucl (Z.pos k * 4503599627370496) 4503599627370496) as [a b]. now subst. }
  destruct F as [F|F]; [left|right]; rewrite F.
  - replace (Z.min e (e - -52)) with e by lia. replace (e - -52 - e) with 52 by lia. rewrite Z.shiftl_mul_pow2 by lia. change (2 ^ 52) with 4503599627370496. rewrite D. reflexivity.
  - replace (Z.min (e - 1) (e - -52)) with (e - 1) by lia. replace (e - -52 - (e - 1)) with 53 by lia. rewrite Z.shiftl_mul_pow2 by lia.
    change (2 ^ 53) with (2 * 4503599627370496). rewrite Z.mul_assoc. change (Z.pos m * 2) with (Z.pos (m * 2)). rewrite Pos.mul_comm. rewrite D. reflexivity.
Qed.
Theorem div_one x : valid_binary 53 1024 x = true -> SFdiv 53 1024 x (S754_finite false 4503599627370496 (-52)) = x.
Proof.
  destruct x as [s|s| |s m e]; cbn [valid_binary SFdiv]; intros H; rewrite ?xorb_false_r; try reflexivity.
  destruct (core_one m e H) as [-> | ->]; [now apply round_same|now apply round_twice].
Qed.
