(** * Concrete sparse matrix histories: witnesses for examples and refutations. *)

From Coq Require Import Reals QArith.
From Verif Require Import Base Targets Matrix Sparse Logic MatrixFacts MatrixOps SpecMatrix MatrixHist MatrixWit
  SparseFacts SpecSparse SparseHist.
Local Open Scope nat_scope.

Fixpoint srunc {tg} st en (ss : sps tg) (os : list (sop tg)) : option (sps tg) :=
  match os with
  | [] => Some ss
  | o :: r => if is_destroy o then None
              else match sstep st en ss o with Ok ss' => srunc st en ss' r | _ => None end
  end.
Lemma srunc_reach {tg} st en os : forall ss ss' : sps tg,
  sreach st en ss -> srunc st en ss os = Some ss' -> sreach st en ss'.
Proof.
  induction os as [|o os IH]; cbn [srunc]; intros ss ss' H E; [now inversion E; subst|].
  destruct (is_destroy o) eqn:D; [discriminate|].
  destruct (sstep st en ss o) as [ss1| | |] eqn:E1; try discriminate.
  eapply IH; [|exact E]. eapply sreach_step; [exact H|exact D|exact E1].
Qed.
Definition safter {tg} st en (os : list (sop tg)) : sps tg :=
  match srunc st en sfresh os with Some ss => ss | None => sfresh end.
Lemma safter_reach {tg} st en (os : list (sop tg)) : sreach st en (safter st en os).
Proof.
  unfold safter. destruct (srunc st en sfresh os) eqn:E; [|constructor].
  eapply srunc_reach; [constructor|exact E].
Qed.

(** writes the entries of one row: three values each *)
Definition row3 {tg} (t r e : nat) (b : Z) (x y z : Z) : list (sop tg) :=
  [SSetBlock t r e b; SSet t r e 0 (cofZ x); SSet t r e 1 (cofZ y); SSet t r e 2 (cofZ z)].

(** over the reals: matrix 0 has been larger and holds stale values, then is
    9 wide and 2 high; its first row has one empty entry *)
Definition shist_R : list (sop (RT true)) :=
  [SInit 0 12 4] ++ row3 0 0 1 3 9 9 9 ++ row3 0 1 0 2 8 8 8 ++
  [SInit 0 9 2] ++ row3 0 0 0 1 1 2 3 ++ row3 0 1 0 2 4 5 6 ++ row3 0 1 1 0 7 0 9 ++
  [SInit 1 9 1] ++ row3 1 0 0 2 1 0 2 ++ row3 1 0 1 1 3 1 0.
Definition sstore_R : sps (RT true) := safter 3 2 shist_R.
Definition mhist_R : list (mop (RT true)) :=
  [ MInitVal 0 4 4 (cofZ 9); MSwap 0 1 3; MInit0 1 2 9; MLoad 1 (rnum [1; 2; 3; 4; 5; 6; 7; 8; 9; 1; 2; 3; 4; 5; 6; 7; 8; 9]%Z);
    MInit0 2 1 2; MLoad 2 (rnum [7; 8]%Z); MInit0 3 1 9; MLoad 3 (rnum [1; 2; 3; 4; 5; 6; 7; 8; 9]%Z) ].
Definition mstore_R : mats (RT true) := after mhist_R.

Definition ex_blk (r e : nat) : Z := nth (r * 2 + e) [1; 255; 2; 0]%Z 255%Z.
Definition ex_v (r e k : nat) : R := IZR (nth (r * 6 + e * 3 + k) [1; 2; 3; 0; 0; 0; 4; 5; 6; 7; 0; 9]%Z 0%Z).
Definition ex_D (r c : nat) : R := row_major 9
  [0; 0; 0; 1; 2; 3; 0; 0; 0;
   7; 0; 9; 0; 0; 0; 4; 5; 6]%Z r c.
Definition ex_blk' (r e : nat) : Z := nth (r * 2 + e) [2; 1]%Z 255%Z.
Definition ex_v' (r e k : nat) : R := IZR (nth (r * 6 + e * 3 + k) [1; 0; 2; 3; 1; 0]%Z 0%Z).
Definition ex_D' (r c : nat) : R := row_major 9 [0; 0; 0; 3; 1; 0; 1; 0; 2]%Z r c.

Ltac small i n := match n with
  | O => exfalso; lia
  | S ?m => destruct i as [|i]; [|small i m] end.

Lemma ex_reach : sreach 3 2 sstore_R /\ mreach false mstore_R.
Proof. split; [apply safter_reach|apply after_reach]. Qed.
Lemma ex_shows : sp_shows 3 2 (sstore_R 0) 9 2 ex_blk (fun r e k => Some (ex_v r e k) : cell (RT true)).
Proof.
  refine (conj eq_refl (conj eq_refl (conj _ _))).
  - intros r e Hr He. small r 2; small e 2; reflexivity.
  - intros r e k Hr He Hk N. small r 2; small e 2; (small k 3; first [reflexivity|exfalso; now apply N]).
Qed.
Lemma ex_shows' : sp_shows 3 2 (sstore_R 1) 9 1 ex_blk' (fun r e k => Some (ex_v' r e k) : cell (RT true)).
Proof.
  refine (conj eq_refl (conj eq_refl (conj _ _))).
  - intros r e Hr He. small r 1; small e 2; reflexivity.
  - intros r e k Hr He Hk N. small r 1; small e 2; (small k 3; first [reflexivity|exfalso; now apply N]).
Qed.
Lemma ex_inside : blocks_inside 3 2 9 2 ex_blk /\ blocks_distinct 2 2 ex_blk.
Proof.
  split; [intros r e Hr He; small r 2; small e 2; cbn; lia|].
  intros r e e' Hr He He'. small r 2; small e 2; small e' 2; cbn; lia.
Qed.
Lemma ex_inside' : blocks_inside 3 2 9 1 ex_blk' /\ blocks_distinct 2 1 ex_blk'.
Proof.
  split; [intros r e Hr He; small r 1; small e 2; cbn; lia|].
  intros r e e' Hr He He'. small r 1; small e 2; small e' 2; cbn; lia.
Qed.
Ltac some_cover := match goal with H : forall e k, ~ covers _ _ _ _ _ _ _ |- _ =>
  first [ exfalso; apply (H 0 0); vm_compute; repeat split; (lia || congruence)
        | exfalso; apply (H 0 1); vm_compute; repeat split; (lia || congruence)
        | exfalso; apply (H 0 2); vm_compute; repeat split; (lia || congruence)
        | exfalso; apply (H 1 0); vm_compute; repeat split; (lia || congruence)
        | exfalso; apply (H 1 1); vm_compute; repeat split; (lia || congruence)
        | exfalso; apply (H 1 2); vm_compute; repeat split; (lia || congruence) ] end.
Lemma ex_describes : describes 0%R 3 2 9 2 ex_blk ex_v ex_D.
Proof.
  intros r c Hr Hc. small r 2; small c 9; (split;
    [intros e k (He & Hk & N & E); small e 2; small k 3; cbn in E; first [discriminate|exfalso; now apply N|reflexivity]
    |intros No; first [reflexivity|some_cover]]).
Qed.
Lemma ex_describes' : describes 0%R 3 2 9 1 ex_blk' ex_v' ex_D'.
Proof.
  intros r c Hr Hc. small r 1; small c 9; (split;
    [intros e k (He & Hk & N & E); small e 2; small k 3; cbn in E; first [discriminate|exfalso; now apply N|reflexivity]
    |intros No; first [reflexivity|some_cover]]).
Qed.
Lemma ex_dense :
  showsR mstore_R 1 2 9 (row_major 2 [1; 2; 3; 4; 5; 6; 7; 8; 9; 1; 2; 3; 4; 5; 6; 7; 8; 9]%Z) /\
  showsR mstore_R 2 1 2 (row_major 1 [7; 8]%Z) /\
  showsR mstore_R 3 1 9 (row_major 1 [1; 2; 3; 4; 5; 6; 7; 8; 9]%Z).
Proof.
  refine (conj (conj eq_refl (conj eq_refl _)) (conj (conj eq_refl (conj eq_refl _)) (conj eq_refl (conj eq_refl _)))).
  - intros r c Hr Hc. small r 9; small c 2; reflexivity.
  - intros r c Hr Hc. small r 2; small c 1; reflexivity.
  - intros r c Hr Hc. small r 9; small c 1; reflexivity.
Qed.

(** ** C15: destroy keeps the old capacity *)
Definition dstore {tg} : sps tg := safter 3 2 [SInit 0 3 2].
Lemma reuse_refuted :
  ~ (forall (tg : target) (st en : nat) (ss : sps tg) id w h,
       sreach st en ss -> exists s', sp_init st en (sp_destroy (ss id)) w h = Ok s').
Proof.
  intros H. destruct (H (QT true) 3 2 dstore 0 3 1 (safter_reach _ _ _)) as [s' E].
  vm_compute in E. discriminate.
Qed.
(** in general: any height up to the largest one used before is undefined behaviour *)
Lemma reuse_ub {tg} st en (ss : sps tg) id w h :
  sreach st en ss -> s_ptr (ss id) = true -> 0 < h <= s_ch (ss id) ->
  sp_init st en (sp_destroy (ss id)) w h = UB.
Proof.
  intros _ P [H1 H2]. unfold sp_init, sp_resize, sp_destroy. rewrite P. cbn [s_w s_h s_ch].
  destruct (Nat.eqb_spec h 0); [lia|]. rewrite andb_false_r.
  destruct (Nat.ltb_spec (s_ch (ss id)) h); [lia|].
  destruct h as [|h]; [lia|]. reflexivity.
Qed.
Lemma reuse_partial {tg} st en (ss : sps tg) id w h :
  sreach st en ss -> s_ch (ss id) < h ->
  exists s' v, sp_init st en (sp_destroy (ss id)) w h = Ok s' /\
    sp_shows st en s' w h (fun _ _ => 255%Z) v.
Proof.
  intros Hr L.
  assert (W : swf st en (ss id)) by (apply (sreach_swf _ _ _ Hr)).
  (* growing beyond the capacity reallocates everything, exactly as from new *)
  assert (E : sp_init st en (sp_destroy (ss id)) w h = sp_init st en sp_new w h).
  { unfold sp_destroy. destruct (s_ptr (ss id)) eqn:P.
    - unfold sp_init, sp_resize. cbn [s_w s_h s_ch sp_new].
      assert (Eh : Nat.eqb h 0 = false) by (apply Nat.eqb_neq; lia). rewrite Eh, !andb_false_r.
      assert (L1 : Nat.ltb (s_ch (ss id)) h = true) by (now apply Nat.ltb_lt).
      assert (L2 : Nat.ltb 0 h = true) by (apply Nat.ltb_lt; lia).
      rewrite L1, L2. unfold sp_destroy. cbn [s_ptr s_w s_h s_ch sp_new]. rewrite ?L1, ?L2. cbn [s_ptr s_w s_h s_ch sp_new s_rows s_data s_blocks]. rewrite ?L2. reflexivity.
    - unfold sp_init, sp_resize.
      assert (C0 : s_ch (ss id) = 0) by (now apply (swf_ptr _ _ _ W)).
      assert (H0 : s_h (ss id) = 0) by (pose proof (swf_h _ _ _ W); lia).
      rewrite H0. cbn [s_w s_h s_ch sp_new].
      assert (Eh : Nat.eqb h 0 = false) by (apply Nat.eqb_neq; lia). rewrite Eh, !andb_false_r.
      rewrite C0. assert (L2 : Nat.ltb 0 h = true) by (apply Nat.ltb_lt; lia). rewrite L2.
      unfold sp_destroy. rewrite P. cbn [s_ptr s_w s_h s_ch sp_new s_rows s_data s_blocks]. rewrite ?C0, ?L2. reflexivity. }
  pose proof (sp_init_spec st en (sp_new (tg := tg)) w h (swf_new _ _)) as I.
  apply wp_ok in I. destruct I as (s' & E' & v & Hv). exists s', v. rewrite E.
  split; [exact E'|now apply is_sp_shows].
Qed.

(** ** C16: a row naming the same block twice *)
Definition dup_s : sps (QT true) :=
  safter 3 2 ([SInit 0 3 1] ++ row3 0 0 0 0 1 0 0 ++ row3 0 0 1 0 1 0 0).
Definition dup_m : mats (QT true) := after [MInitVal 0 1 3 (cofZ 1)].
Lemma duplicate_refuted :
  ~ (forall (ss : sps (QT true)) ms id blk v w h n y,
       sreach 3 2 ss -> mreach false ms -> sp_shows 3 2 (ss id) n h blk v -> blocks_inside 3 2 n h blk ->
       shows ms 0 w n y ->
       exists ms1 ms2 ms3 F,
         sp_multiply 3 2 (ss id) ms 0 1 = Ok ms1 /\
         sp_expand 3 2 (ss id) ms 2 = Ok ms2 /\ mmultiply ms2 2 0 3 = Ok ms3 /\
         shows ms1 1 w h F /\ shows ms3 3 w h F).
Proof.
  intros H.
  destruct (H dup_s dup_m 0 (fun _ _ => 0%Z) (fun _ _ k => if Nat.eqb k 0 then cofZ 1 else cofZ 0) 1 1 3 (fun _ _ => cofZ 1))
    as (ms1 & ms2 & ms3 & F & E1 & E2 & E3 & (_ & _ & S1) & (_ & _ & S3)).
  - apply safter_reach.
  - apply after_reach.
  - refine (conj eq_refl (conj eq_refl (conj _ _))).
    + intros r e Hr He. small r 1; small e 2; reflexivity.
    + intros r e k Hr He Hk _. small r 1; small e 2; small k 3; reflexivity.
  - intros r e Hr He. right. cbn. lia.
  - refine (conj eq_refl (conj eq_refl _)). intros r c Hr Hc. small r 3; small c 1; reflexivity.
  - specialize (S1 0 0 ltac:(lia) ltac:(lia)). specialize (S3 0 0 ltac:(lia) ltac:(lia)).
    assert (V1 : (let* m := sp_multiply 3 2 (dup_s 0) dup_m 0 1 in mget m 1 0 0) = Ok (cofZ 2))
      by (vm_compute; reflexivity).
    assert (V2 : (let* m := sp_expand 3 2 (dup_s 0) dup_m 2 in let* m := mmultiply m 2 0 3 in mget m 3 0 0) = Ok (cofZ 1))
      by (vm_compute; reflexivity).
    rewrite E1 in V1. rewrite E2 in V2. cbn [bind] in V1, V2. rewrite E3 in V2. cbn [bind] in V2.
    rewrite V1 in S1. rewrite V2 in S3. rewrite <- S3 in S1.
    discriminate.
Qed.
