(** * The constraint equations in exact reals. *)

From Coq Require Import Reals Lra.
From Verif Require Import Base Targets Matrix Sparse Sle State Ode Forces Constraints System Logic RealSum
  MatrixFacts MatrixOps SpecMatrix MatrixHist SparseFacts SpecSparse SparseHist SpecSle SleHist SleGe
  SpecState StateFacts SpecOde OdeFacts SpecSys RegFacts SysFrame SysInv SpecDyn DynState DynReact DynRound DynStep DynGather DynRight DynReady SpecSolve.
From Verif Require GeHist.
Local Open Scope nat_scope.

(** ** sums over lists *)
Lemma Lsum_cons {A} (a : A) l f : Lsum (a :: l) f = (f a + Lsum l f)%R.
Proof. reflexivity. Qed.
Lemma Lsum_ext {A} (l : list A) f g : (forall a, In a l -> f a = g a) -> Lsum l f = Lsum l g.
Proof.
  induction l as [|a l IH]; intros H; [reflexivity|]. rewrite !Lsum_cons, H, IH; [reflexivity| |now left]. intros; apply H; now right.
Qed.
Lemma Lsum_app {A} (l l' : list A) f : Lsum (l ++ l') f = (Lsum l f + Lsum l' f)%R.
Proof. induction l as [|a l IH]; [unfold Lsum; cbn; lra|]. cbn [app]. rewrite !Lsum_cons, IH. lra. Qed.
Lemma Lsum_flat {A B} (l : list A) (g : A -> list B) f : Lsum (flat_map g l) f = Lsum l (fun a => Lsum (g a) f).
Proof. induction l as [|a l IH]; [reflexivity|]. cbn [flat_map]. now rewrite Lsum_app, Lsum_cons, IH. Qed.
Lemma Lsum_map {A B} (l : list A) (g : A -> B) f : Lsum (map g l) f = Lsum l (fun a => f (g a)).
Proof. induction l as [|a l IH]; [reflexivity|]. cbn [map]. now rewrite !Lsum_cons, IH. Qed.
Lemma Lsum_seq n : forall a f, Lsum (seq a n) f = Rsum n (fun i => f (a + i)).
Proof.
  induction n as [|n IH]; intros a f; [reflexivity|]. cbn [seq]. change (Lsum (a :: seq (S a) n) f) with (f a + Lsum (seq (S a) n) f)%R.
  rewrite IH, Rsum_head, Nat.add_0_r. f_equal. apply Rsum_ext. intros i _. f_equal. lia.
Qed.
Lemma Lsum_nth {A} (x : A) (l : list A) f : Lsum l f = Rsum (length l) (fun i => f (nth i l x)).
Proof.
  induction l as [|a l IH]; [reflexivity|]. cbn [length]. rewrite Rsum_head. change (Lsum (a :: l) f) with (f a + Lsum l f)%R. now rewrite IH.
Qed.
Lemma Lsum_scal {A} (l : list A) a f : Lsum l (fun i => a * f i)%R = (a * Lsum l f)%R.
Proof. induction l as [|b l IH]; [unfold Lsum; cbn; lra|]. rewrite !Lsum_cons, IH. lra. Qed.

Section S.
Context {dbg : bool}.
Notation T := (RT dbg).
Implicit Types (w : world T) (y : sys T).

Lemma rows_flat {tg} (w : world tg) (y : sys tg) : slots w y =
  flat_map (fun x => map (fun k => (fst x, snd x, k)) (seq 0 (c_bodycount (w_con w (fst x))))) (row_list w y).
Proof.
  unfold slots, row_list. induction (y_cons y) as [|c l IH]; [reflexivity|]. cbn [flat_map]. rewrite flat_map_app, <- IH. f_equal.
  generalize (seq 0 (c_count (w_con w c))). induction l0 as [|j l0 IH0]; [reflexivity|]. cbn [map flat_map fst snd]. now rewrite IH0.
Qed.
Lemma Lsum_slots w y g : Lsum (slots w y) g =
  Rsum (full_count w y) (fun r => Rsum (c_bodycount (w_con w (rc w y r))) (fun k => g (rc w y r, rj w y r, k))).
Proof.
  rewrite rows_flat, Lsum_flat, (Lsum_nth (0, 0)), row_list_length. apply Rsum_ext. intros r Hr.
  rewrite Lsum_map, Lsum_seq. unfold rc, rj, row_of. rewrite <- row_list_length in Hr.
  rewrite (nth_error_nth' _ (0, 0) Hr). reflexivity.
Qed.

(** ** the dense form *)
Section Dense.
Variables (w : world T) (y : sys T) (J : nat -> nat -> nat -> R).
Hypotheses (HL : listed w y) (HA : attached w y) (HS : shaped w y) (HB : body_count y <= 255).
Notation n := (3 * body_count y)%nat.
Notation m := (full_count w y).
Definition vJ (r e k : nat) : R := J (rc w y r) (rj w y r) (3 * e + k).
Definition DJ (r c : nat) : R := Rsum 2 (fun e => Rsum 3 (fun k =>
  if negb (Z.eqb (blkR w y r e) 255) && Nat.eqb c (Z.to_nat (blkR w y r e) * 3 + k) then vJ r e k else 0%R)).
Lemma DJ_sums : sums 3 2 n m (blkR w y) vJ DJ.
Proof. intros r c _ _. reflexivity. Qed.
(** a vector by columns *)
Definition cols (u : nat -> nat -> R) (c : nat) : R :=
  match nth_error (y_bodies y) (c / 3) with Some b => u b (c mod 3) | None => 0%R end.

Lemma Rsum_two b f : b <= 2 -> Rsum 2 (fun e => if Nat.ltb e b then f e else 0%R) = Rsum b f.
Proof. clear HL HA HS HB. intros H. destruct b as [|[|[|]]]; try lia; cbn [Rsum];
  repeat match goal with |- context [Nat.ltb ?a ?b] => destruct (Nat.ltb_spec a b); try lia end; lra. Qed.
Lemma slot_at r e : r < m -> e < c_bodycount (w_con w (rc w y r)) ->
  blkR w y r e = Z.of_nat (bi w (rc w y r) e) /\ bi w (rc w y r) e < body_count y /\
  nth_error (y_bodies y) (bi w (rc w y r) e) = Some (who w (rc w y r) e) /\ c_bodies (w_con w (rc w y r)) e = Some (who w (rc w y r) e).
Proof.
  intros Hr He. destruct (blkR_small w y r e HL HA HB Hr He) as [-> _]. destruct (row_of_lt w y r Hr) as (i & Ec & _).
  destruct (attached_bi w y _ e HL HA (nth_error_In _ _ Ec) He) as (b & Eb & En & Lb & _). unfold who. rewrite Eb. auto.
Qed.
Lemma empty_at r e : ~ e < c_bodycount (w_con w (rc w y r)) -> blkR w y r e = 255%Z.
Proof. intros H. unfold blkR. destruct (Nat.ltb_spec e (c_bodycount (w_con w (rc w y r)))); [contradiction|reflexivity]. Qed.
Lemma cols_at u r e k : r < m -> e < c_bodycount (w_con w (rc w y r)) -> k < 3 ->
  cols u (bcol 3 (blkR w y r e) k) = u (who w (rc w y r) e) k.
Proof.
  intros Hr He Hk. destruct (slot_at r e Hr He) as (E & _ & Eb & _). unfold cols, bcol. rewrite E, Nat2Z.id.
  destruct (div3 (bi w (rc w y r) e) k Hk) as [-> ->]. now rewrite Eb.
Qed.
Lemma bodies2 r : r < m -> c_bodycount (w_con w (rc w y r)) <= 2.
Proof. intros Hr. destruct (row_of_lt w y r Hr) as (i & Ec & _). apply (HS _ (nth_error_In _ _ Ec)). Qed.
Lemma entries_along u r : r < m ->
  Rsum 2 (fun e => if Z.eqb (blkR w y r e) 255 then 0 else Rsum 3 (fun k => vJ r e k * cols u (bcol 3 (blkR w y r e) k)))%R =
  along w J u (rc w y r) (rj w y r).
Proof.
  intros Hr. unfold along. rewrite <- (Rsum_two _ _ (bodies2 r Hr)). apply Rsum_ext. intros e He.
  destruct (Nat.ltb_spec e (c_bodycount (w_con w (rc w y r)))) as [Hb|Hb].
  - destruct (blkR_small w y r e HL HA HB Hr Hb) as [_ N]. destruct (Z.eqb_spec (blkR w y r e) 255); [contradiction|].
    apply Rsum_ext. intros k Hk. unfold vJ. now rewrite cols_at.
  - rewrite empty_at by lia. reflexivity.
Qed.
Lemma dense_along u r : r < m -> Rsum n (fun c => DJ r c * cols u c)%R = along w J u (rc w y r) (rj w y r).
Proof.
  intros Hr. rewrite (entries_dense 3 2 n m (blkR w y) vJ DJ (cols u) r (blkR_inside w y HL HA HS) DJ_sums Hr). now apply entries_along.
Qed.
Lemma srow_along (v : nat -> nat -> cell T) (Y : nat -> cell T) u r : r < m ->
  (forall e k, e < c_bodycount (w_con w (rc w y r)) -> k < 3 -> v e k = Some (vJ r e k)) ->
  (forall c, c < n -> Y c = Some (cols u c)) ->
  srow 3 2 (blkR w y r) v Y = (Some (along w J u (rc w y r) (rj w y r)) : cell T).
Proof.
  intros Hr Hv HY. pose proof (blkR_inside w y HL HA HS) as HI.
  rewrite (srow_ext 3 2 (blkR w y r) v (fun e k => Some (vJ r e k)) Y (fun c => Some (cols u c)) n).
  - rewrite srow_R. f_equal. now apply entries_along.
  - intros e k He Hk N. apply Hv; [|exact Hk]. destruct (Nat.lt_ge_cases e (c_bodycount (w_con w (rc w y r)))) as [L|L]; [exact L|].
    rewrite empty_at in N by lia. contradiction.
  - intros e He. apply (inside_of 3 2 n m _ HI); assumption.
  - exact HY.
Qed.
(** the transposed product *)
Lemma dense_acts (x : nat -> nat -> R) i b d : nth_error (y_bodies y) i = Some b -> d < 3 ->
  Rsum m (fun r => DJ r (i * 3 + d) * x (rc w y r) (rj w y r))%R = acts w y J x b d.
Proof.
  intros Eb Hd. unfold acts. rewrite Lsum_slots. apply Rsum_ext. intros r Hr. unfold DJ. rewrite <- Rsum_scal_r.
  rewrite <- (Rsum_two _ _ (bodies2 r Hr)). apply Rsum_ext. intros e He.
  destruct (Nat.ltb_spec e (c_bodycount (w_con w (rc w y r)))) as [Hb|Hb].
  - destruct (blkR_small w y r e HL HA HB Hr Hb) as [_ N]. destruct (slot_at r e Hr Hb) as (E & Lb & En & Ec).
    unfold binds. rewrite Ec. destruct (Nat.eqb_spec (who w (rc w y r) e) b) as [Q|Q].
    + assert (Ei : bi w (rc w y r) e = i).
      { pose proof HL as [HL1 _]. pose proof (HL1 _ _ En) as X1. pose proof (HL1 _ _ Eb) as X2. rewrite Q in X1. lia. }
      rewrite (Rsum_ext 3 _ (fun k => if Nat.eqb k d then vJ r e k else 0%R)).
      * rewrite (Rsum_single 3 d (vJ r e)) by exact Hd. reflexivity.
      * intros k Hk. destruct (Z.eqb_spec (blkR w y r e) 255); [contradiction|]. cbn [negb andb]. rewrite E, Nat2Z.id, Ei.
        destruct (Nat.eqb_spec (i * 3 + d) (i * 3 + k)), (Nat.eqb_spec k d); try lia; reflexivity.
    + rewrite Rsum_eq0; [lra|]. intros k Hk. destruct (Z.eqb_spec (blkR w y r e) 255); [contradiction|]. cbn [negb andb]. rewrite E, Nat2Z.id.
      destruct (Nat.eqb_spec (i * 3 + d) (bi w (rc w y r) e * 3 + k)) as [X|X]; [|reflexivity].
      assert (bi w (rc w y r) e = i) by lia. congruence.
  - rewrite Rsum_eq0; [lra|]. intros k Hk. now rewrite empty_at by lia.
Qed.
Lemma cols_split c : c < n -> exists i b, c = i * 3 + c mod 3 /\ c mod 3 < 3 /\ nth_error (y_bodies y) i = Some b /\ i = c / 3 /\ In b (y_bodies y).
Proof.
  clear HL HA HS HB. intros Hc. assert (D3 : c = 3 * (c / 3) + c mod 3) by (apply Nat.div_mod; lia). assert (M3 : c mod 3 < 3) by (apply Nat.mod_upper_bound; lia).
  destruct (nth_error_ex (y_bodies y) (c / 3)) as [b Eb]; [unfold body_count in *; lia|]. exists (c / 3), b. repeat split; auto; try lia.
  eapply nth_error_In; eauto.
Qed.
Lemma dense_acts_col x c : c < n -> Rsum m (fun r => DJ r c * x (rc w y r) (rj w y r))%R = cols (acts w y J x) c.
Proof.
  intros Hc. destruct (cols_split c Hc) as (i & b & E & Hd & Eb & Ei & _). rewrite (Rsum_ext m _ (fun r => DJ r (i * 3 + c mod 3) * x (rc w y r) (rj w y r))%R) by (intros; now rewrite <- E).
  rewrite (dense_acts x i b (c mod 3) Eb Hd).
  unfold cols. rewrite <- Ei, Eb. reflexivity.
Qed.
(** J W J^T x *)
Lemma mulv_along (M : nat -> nat -> R) (x : nat -> nat -> R) r : r < m ->
  mulv m (JWJt n DJ (cols (fun b d => / M b d)%R)) (fun c => x (rc w y c) (rj w y c)) r =
  along w J (fun b d => acts w y J x b d / M b d)%R (rc w y r) (rj w y r).
Proof.
  intros Hr. unfold mulv, JWJt. rewrite <- (dense_along (fun b d => acts w y J x b d / M b d)%R r Hr).
  rewrite (Rsum_ext m _ (fun c => Rsum n (fun k => DJ r k * cols (fun b d => / M b d) k * (DJ c k * x (rc w y c) (rj w y c))))%R).
  2:{ intros c _. rewrite <- Rsum_scal_r. apply Rsum_ext. intros k _. ring. }
  rewrite Rsum_swap. apply Rsum_ext. intros c Hc. rewrite Rsum_scal_l, dense_acts_col by exact Hc.
  unfold cols. destruct (nth_error (y_bodies y) (c / 3)); [unfold Rdiv|]; ring.
Qed.
(** multipliers by row number *)
Definition by_row (x : nat -> R) (c j : nat) : R := x (row0 w y c + j).
Lemma by_row_at x r : r < m -> by_row x (rc w y r) (rj w y r) = x r.
Proof.
  intros Hr. unfold by_row. destruct (row_of_lt w y r Hr) as (i & Ec & Hj & Er). now rewrite (row0_at w y i _ HL Ec), <- Er.
Qed.
Lemma rows_all (P : nat -> nat -> Prop) : (forall r, r < m -> P (rc w y r) (rj w y r)) -> every_row w y P.
Proof. intros H c j Hc Hj. destruct (row_at w y c j HL Hc Hj) as (Lr & E1 & E2). specialize (H _ Lr). now rewrite E1, E2 in H. Qed.
Lemma all_rows (P : nat -> nat -> Prop) : every_row w y P -> forall r, r < m -> P (rc w y r) (rj w y r).
Proof. intros H r Hr. destruct (row_of_lt w y r Hr) as (i & Ec & Hj & _). apply H; [eapply nth_error_In; eauto|exact Hj]. Qed.
Lemma mulv_ext A x x' r : (forall c, c < m -> x c = x' c) -> mulv m A x r = mulv m A x' r.
Proof. intros H. unfold mulv. apply Rsum_ext. intros c Hc. now rewrite H. Qed.
Lemma mulv_by_row M x r : r < m -> mulv m (JWJt n DJ (cols (fun b d => / M b d)%R)) x r =
  along w J (fun b d => acts w y J (by_row x) b d / M b d)%R (rc w y r) (rj w y r).
Proof.
  intros Hr. rewrite <- mulv_along by exact Hr. apply mulv_ext. intros c Hc. symmetry. now apply by_row_at.
Qed.
Lemma regular_nonsingular M : regular w y M J -> nonsingular m (JWJt n DJ (cols (fun b d => / M b d)%R)).
Proof.
  intros H x Hx c Hc. rewrite <- (by_row_at x c Hc). apply (all_rows _ (H (by_row x) ltac:(
    apply rows_all; intros r Hr; rewrite <- mulv_by_row by exact Hr; now apply Hx)) c Hc).
Qed.
(** positive masses and independent rows are enough *)
Lemma energy_zero (M : nat -> nat -> R) x : (forall b d, In b (y_bodies y) -> d < 3 -> (0 < M b d)%R) ->
  every_row w y (fun c j => (x c j * along w J (fun b d => acts w y J x b d / M b d) c j = 0)%R) ->
  forall b d, In b (y_bodies y) -> d < 3 -> acts w y J x b d = 0%R.
Proof.
  intros HM Hx b d Hb Hd.
  set (x' := fun r => x (rc w y r) (rj w y r)).
  assert (Z : Rsum n (fun c => (cols (acts w y J x) c * cols (acts w y J x) c) * cols (fun b d => / M b d) c)%R = 0%R).
  { transitivity (Rsum m (fun r => x' r * mulv m (JWJt n DJ (cols (fun b d => / M b d))) x' r)%R).
    - unfold mulv, JWJt.
      rewrite (Rsum_ext m _ (fun r => Rsum n (fun k => (DJ r k * x' r) * (cols (fun b d => / M b d) k * Rsum m (fun c => DJ c k * x' c))))%R).
      2:{ intros r Hr. rewrite <- Rsum_scal_l. rewrite (Rsum_ext m _ (fun c => Rsum n (fun k => DJ r k * x' r * cols (fun b d => / M b d) k * (DJ c k * x' c))%R)).
          2:{ intros c Hc. rewrite <- Rsum_scal_r, <- Rsum_scal_l. apply Rsum_ext. intros k _. ring. }
          rewrite Rsum_swap. apply Rsum_ext. intros k _. rewrite Rsum_scal_l. ring. }
      rewrite Rsum_swap. apply Rsum_ext. intros c Hc. rewrite Rsum_scal_r. unfold x'. rewrite !(dense_acts_col x c Hc). ring.
    - apply Rsum_eq0. intros r Hr. unfold x'. rewrite (mulv_along M x r Hr). exact (all_rows _ Hx r Hr). }
  apply In_nth_error in Hb. destruct Hb as [i Ei].
  assert (Hc : i * 3 + d < n) by (pose proof (nth_error_lt _ _ _ Ei); unfold body_count; lia).
  pose proof (Rsum_nonneg_zero n (fun c => (cols (acts w y J x) c * cols (acts w y J x) c) * cols (fun b d => / M b d) c)%R) as Q.
  specialize (fun A => Q A Z (i * 3 + d) Hc). cbv beta in Q.
  assert (C : forall u, cols u (i * 3 + d) = u b d) by (intros u; unfold cols; destruct (div3 i d Hd) as [-> ->]; now rewrite Ei).
  rewrite !C in Q. pose proof (HM b d (nth_error_In _ _ Ei) Hd) as P. apply Rinv_0_lt_compat in P.
  destruct (Req_dec (acts w y J x b d) 0) as [E|N]; [exact E|]. exfalso.
  assert (acts w y J x b d * acts w y J x b d * / M b d = 0)%R.
  { apply Q. intros c Hc'. destruct (cols_split c Hc') as (i' & b' & _ & Hd' & Eb' & Ei' & Hb'). unfold cols. rewrite <- Ei', Eb'.
    apply Rmult_le_pos; [apply Rle_0_sqr|]. left. apply Rinv_0_lt_compat, HM; assumption. }
  apply Rmult_integral in H. destruct H; [|lra]. apply Rmult_integral in H. tauto.
Qed.
Lemma independent_regular (M : nat -> nat -> R) : (forall b d, In b (y_bodies y) -> d < 3 -> (0 < M b d)%R) -> independent w y J -> regular w y M J.
Proof.
  intros HM HI x Hx. apply HI. intros b d Hb Hd. apply (energy_zero M); auto. intros c j Hc Hj. rewrite (Hx c j Hc Hj). ring.
Qed.
Lemma along_ext u u' c j : (forall k d, k < c_bodycount (w_con w c) -> d < 3 -> u (who w c k) d = u' (who w c k) d) -> along w J u c j = along w J u' c j.
Proof. intros H. apply Rsum_ext. intros k Hk. apply Rsum_ext. intros d Hd. now rewrite H. Qed.
Lemma along_plus u u' c j : along w J (fun b d => u b d + u' b d)%R c j = (along w J u c j + along w J u' c j)%R.
Proof. unfold along. rewrite <- Rsum_plus. apply Rsum_ext. intros k Hk. rewrite <- Rsum_plus. apply Rsum_ext. intros d Hd. ring. Qed.
Lemma along_scal a u c j : along w J (fun b d => a * u b d)%R c j = (a * along w J u c j)%R.
Proof. unfold along. rewrite <- Rsum_scal_l. apply Rsum_ext. intros k Hk. rewrite <- Rsum_scal_l. apply Rsum_ext. intros d Hd. ring. Qed.
Lemma acts_scal a x b d : acts w y J (fun c j => a * x c j)%R b d = (a * acts w y J x b d)%R.
Proof.
  unfold acts. rewrite <- Lsum_scal. apply Lsum_ext. intros [[c j] k] _. destruct (binds w b (c, j, k)); ring.
Qed.
(** the sum of the forces on a body *)
Lemma total_R F b (f : R) : total_on w y (fun c j k => (Some (F c j k) : cell T)) b (Some f : cell T) =
  (Some (f + Lsum (slots w y) (fun '(c, j, k) => if binds w b (c, j, k) then F c j k else 0))%R : cell T).
Proof.
  unfold total_on. revert f. induction (slots w y) as [|[[c j] k] l IH]; intros f; [cbn [fold_left]; f_equal; unfold Lsum; cbn; lra|]. cbn [fold_left]. rewrite Lsum_cons.
  destruct (binds w b (c, j, k)).
  - change (cadd (Some f : cell T) (Some (F c j k) : cell T)) with (Some (f + F c j k)%R : cell T). rewrite IH. f_equal. unfold Lsum. lra.
  - rewrite IH. f_equal. unfold Lsum. lra.
Qed.
Lemma total_ext F F' b x0 : (forall c j k, In c (y_cons y) -> j < c_count (w_con w c) -> k < c_bodycount (w_con w c) -> F c j k = F' c j k) ->
  total_on w y F b x0 = total_on w y F' b x0.
Proof.
  clear HL HA HS HB. intros H. unfold total_on.
  assert (G : forall e, In e (slots w y) -> let '(c, j, k) := e in In c (y_cons y) /\ j < c_count (w_con w c) /\ k < c_bodycount (w_con w c)).
  { intros e He. unfold slots in He. apply in_flat_map in He. destruct He as (c & Hc & He). apply in_flat_map in He. destruct He as (j & Hj & He).
    apply in_map_iff in He. destruct He as (k & <- & Hk). apply in_seq in Hj. apply in_seq in Hk. repeat split; auto; lia. }
  revert x0 G. induction (slots w y) as [|[[c j] k] l IH]; intros x0 G; cbn [fold_left]; [reflexivity|].
  destruct (G (c, j, k) (or_introl eq_refl)) as (G1 & G2 & G3). rewrite (H c j k G1 G2 G3). apply IH. intros e He. apply G. now right.
Qed.
End Dense.
End S.
