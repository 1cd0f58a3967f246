(** * Concrete matrix histories: witnesses for the examples and refutations. *)

From Coq Require Import Reals QArith.
From Coq Require Import Floats.SpecFloat.
From Verif Require Import Base Targets Matrix Logic MatrixFacts MatrixOps SpecMatrix MatrixHist.

(** running a history with its argument checks *)
Definition margs_okb {tg} (ms : mats tg) (o : mop tg) : bool :=
  match o with
  | MSwap t a b => Nat.ltb a (m_h (ms t)) && Nat.ltb b (m_h (ms t))
  | MLoad t data => Nat.leb (m_w (ms t) * m_h (ms t)) (length data)
  | _ => true
  end.
Fixpoint mrunc {tg} (noswap : bool) (ms : mats tg) (os : list (mop tg)) : option (mats tg) :=
  match os with
  | [] => Some ms
  | o :: r =>
      if margs_okb ms o && negb (noswap && is_swap o)
      then match mstep ms o with Ok ms' => mrunc noswap ms' r | _ => None end
      else None
  end.
Lemma mrunc_reach {tg} k os : forall ms ms' : mats tg,
  mreach k ms -> mrunc k ms os = Some ms' -> mreach k ms'.
Proof.
  induction os as [|o os IH]; cbn [mrunc]; intros ms ms' H E; [now inversion E; subst|].
  destruct (margs_okb ms o && negb (k && is_swap o)) eqn:A; [|discriminate].
  apply andb_true_iff in A. destruct A as [A1 A2].
  destruct (mstep ms o) as [ms1| | |] eqn:E1; try discriminate.
  eapply IH; [|exact E]. eapply reach_step; [exact H| | |exact E1].
  - destruct o; cbn in *; auto.
    + now apply Nat.leb_le.
    + apply andb_true_iff in A1. destruct A1. split; now apply Nat.ltb_lt.
  - intros ->. cbn in A2. now destruct (is_swap o).
Qed.

(** the store a history leads to *)
Definition after {tg} (os : list (mop tg)) : mats tg :=
  match mrunc false fresh os with Some ms => ms | None => fresh end.
Lemma after_reach {tg} (os : list (mop tg)) : mreach false (after os).
Proof.
  unfold after. destruct (mrunc false fresh os) eqn:E; [|constructor].
  eapply mrunc_reach; [constructor|exact E].
Qed.
Definition after_ns {tg} (os : list (mop tg)) : mats tg :=
  match mrunc true fresh os with Some ms => ms | None => fresh end.
Lemma after_ns_reach {tg} (os : list (mop tg)) : mreach true (after_ns os).
Proof.
  unfold after_ns. destruct (mrunc true fresh os) eqn:E; [|constructor].
  eapply mrunc_reach; [constructor|exact E].
Qed.

(** *** a history over the reals: matrix 0 is 2 wide, 3 high and has been
    through larger sizes and a row swap; matrix 1 is 1 wide, 2 high; matrix 2
    is 2 wide, 3 high; matrix 3 is 1 wide, 3 high *)
Definition rnum (l : list Z) : list (cell (RT true)) := map (fun z => cofZ z) l.
Definition hist_R : list (mop (RT true)) :=
  [ MInitVal 0 4 4 (cofZ 9); MSwap 0 1 3; MInit0 0 2 3; MLoad 0 (rnum [1; 2; 3; 4; 5; 6]%Z);
    MInit0 1 1 2; MLoad 1 (rnum [7; 8]%Z); MInit0 2 2 3; MLoad 2 (rnum [1; 0; 2; 0; 3; 1]%Z);
    MInit0 3 1 3; MLoad 3 (rnum [2; 5; 7]%Z) ].
Definition store_R : mats (RT true) := after hist_R.
Definition row_major (w : nat) (l : list Z) (r c : nat) : R := IZR (nth (r * w + c) l 0%Z).

Lemma store_R_shows :
  mreach false store_R /\
  showsR store_R 0 2 3 (row_major 2 [1; 2; 3; 4; 5; 6]%Z) /\
  showsR store_R 1 1 2 (row_major 1 [7; 8]%Z) /\
  showsR store_R 2 2 3 (row_major 2 [1; 0; 2; 0; 3; 1]%Z) /\
  showsR store_R 3 1 3 (row_major 1 [2; 5; 7]%Z).
Proof.
  split; [apply after_reach|].
  repeat split; intros r c Hr Hc.
  all: do 3 (try destruct r as [|r]); try lia; do 2 (try destruct c as [|c]); try lia; reflexivity.
Qed.

Definition hist_ns : list (mop (RT true)) :=
  [ MInit0 0 1 3; MLoad 0 (rnum [1; 2; 3]%Z); MInit0 1 1 3; MLoad 1 (rnum [4; 5; 6]%Z) ].
Definition store_ns : mats (RT true) := after_ns hist_ns.
Lemma store_ns_shows :
  mreach true store_ns /\
  showsR store_ns 0 1 3 (row_major 1 [1; 2; 3]%Z) /\
  showsR store_ns 1 1 3 (row_major 1 [4; 5; 6]%Z).
Proof.
  split; [apply after_ns_reach|].
  repeat split; intros r c Hr Hc.
  all: do 3 (try destruct r as [|r]); try lia; do 1 (try destruct c as [|c]); try lia; reflexivity.
Qed.

(** *** rational witnesses of the refuted claims *)
Definition qnum (l : list Z) : list (cell (QT true)) := map (fun z => cofZ z) l.

(** multiply with the target equal to the left operand (2 by 2, 0/1 entries):
    [[0 1] [1 0]] * [[1 1] [0 1]] *)
Definition hist_alias : list (mop (QT true)) :=
  [ MInit0 0 2 2; MLoad 0 (qnum [1; 1; 0; 1]%Z); MInit0 1 2 2; MLoad 1 (qnum [1; 1; 1; 0]%Z) ].
Definition store_alias : mats (QT true) := after hist_alias.

Lemma alias_wrong :
  mget store_alias 0 0 0 = Ok (Some (1#1)) /\ mget store_alias 0 1 0 = Ok (Some (1#1)) /\
  mget store_alias 1 0 0 = Ok (Some (1#1)) /\ mget store_alias 1 1 0 = Ok (Some (1#1)) /\
  mget store_alias 1 0 1 = Ok (Some (1#1)) /\ mget store_alias 1 1 1 = Ok (Some (0#1)) /\
  exists ms', mmultiply store_alias 0 1 0 = Ok ms' /\
    mget ms' 0 0 0 = Ok (Some (2#1)) /\ mget ms' 0 1 0 = Ok (Some (2#1)).
Proof. repeat split; try (vm_compute; reflexivity). eexists; repeat split; vm_compute; reflexivity. Qed.

(** equals with a NaN element *)
Definition store_nan : mats (F64 true) :=
  after [ MInitVal 0 1 1 (Some S754_nan : cell (F64 true)); MInitVal 1 1 1 (cofZ 0) ].
Lemma nan_equal :
  mget store_nan 0 0 0 = Ok (Some S754_nan) /\ mget store_nan 1 0 0 = Ok (Some (f_ofZ 0)) /\
  mequals store_nan 0 1 (cofZ 0) = Ok true.
Proof. repeat split; vm_compute; reflexivity. Qed.

(** dot after a row swap: with capacity to spare it is wrong, with none it
    reads outside the block *)
Definition store_swap : mats (QT true) :=
  after [ MInit0 0 1 2; MLoad 0 (qnum [1; 2]%Z); MSwap 0 0 1; MInit0 1 1 2; MLoad 1 (qnum [1; 0]%Z) ].
Definition store_swap2 : mats (QT true) :=
  after [ MInitVal 0 1 3 (cofZ 9); MInit0 0 1 2; MLoad 0 (qnum [1; 2]%Z); MSwap 0 0 1; MInit0 1 1 2; MLoad 1 (qnum [1; 0]%Z); MSet 1 0 1 (cofZ 1) ].
Lemma dot_swap_wrong :
  (mget store_swap 0 0 0 = Ok (Some (2#1)) /\ mget store_swap 0 0 1 = Ok (Some (1#1)) /\
   mdot store_swap 0 1 = UB /\ mvecmag2 store_swap 0 = UB) /\
  (mget store_swap2 0 0 0 = Ok (Some (2#1)) /\ mget store_swap2 0 0 1 = Ok (Some (1#1)) /\
   mget store_swap2 1 0 0 = Ok (Some (1#1)) /\ mget store_swap2 1 0 1 = Ok (Some (1#1)) /\
   mdot store_swap2 0 1 = Ok (Some (11#1)) /\ mvecmag2 store_swap2 0 = Ok (Some (85#1))).
Proof. repeat split; vm_compute; reflexivity. Qed.

(** bulk load after a row swap *)
Lemma load_swap_wrong :
  exists ms', mstep store_swap (MLoad 0 (qnum [5; 6]%Z)) = Ok ms' /\
    mget ms' 0 0 0 = Ok (Some (6#1)) /\ mget ms' 0 0 1 = Ok (Some (5#1)).
Proof. eexists; repeat split; vm_compute; reflexivity. Qed.
(** ... and a same-size initialize does not cure it *)
Lemma load_swap_wrong_after_initialize :
  exists ms1 ms', mstep store_swap (MInit0 0 1 2) = Ok ms1 /\
    mstep ms1 (MLoad 0 (qnum [5; 6]%Z)) = Ok ms' /\
    mget ms' 0 0 0 = Ok (Some (6#1)).
Proof. do 2 eexists; repeat split; vm_compute; reflexivity. Qed.

(** *** the refutations in the form of the claims *)
Definition contents {tg} (ms : mats tg) (id r c : nat) : cell tg :=
  match mget ms id c r with Ok x => x | _ => None end.
Lemma shows_contents {tg} (ms : mats tg) id :
  mreach false ms -> shows ms id (m_w (ms id)) (m_h (ms id)) (contents ms id).
Proof.
  intros H. destruct (wf_contents _ _ (mreach_wf _ _ H id)) as [f Hf].
  eapply shows_ext; [eapply is_mat_shows; exact Hf|].
  intros r c Hr Hc. unfold contents. now rewrite (mget_spec _ _ _ _ _ _ _ _ Hf).
Qed.

Lemma multiply_alias_refuted :
  ~ (forall (ms : mats (QT true)) this b n f fb,
       mreach false ms -> shows ms this n n f -> shows ms b n n fb ->
       exists ms', mmultiply ms this b this = Ok ms' /\
         shows ms' this n n (fun r c => fold_sum n (fun k => cmul (f r k) (fb k c)))).
Proof.
  intros H. pose proof (after_reach hist_alias) as Hr.
  destruct (H _ 0%nat 1%nat _ _ _ Hr (shows_contents _ 0%nat Hr) (shows_contents _ 1%nat Hr))
    as (ms' & E & _ & _ & Hs).
  destruct alias_wrong as (_ & _ & _ & _ & _ & _ & ms'' & E' & _ & Hbad).
  unfold store_alias in E'. rewrite E' in E. injection E as <-.
  assert (L : (1 < m_w (after hist_alias 0%nat))%nat) by (vm_compute; lia).
  specialize (Hs 0%nat 1%nat ltac:(lia) L). rewrite Hbad in Hs.
  vm_compute in Hs. discriminate.
Qed.

Lemma equals_nan_refuted :
  ~ (forall (ms : mats (F64 true)) a b x y e,
       mreach false ms ->
       shows ms a 1 1 (fun _ _ => Some x) -> shows ms b 1 1 (fun _ _ => Some y) ->
       mequals ms a b (Some e : cell (F64 true)) = Ok true ->
       SFleb (SFabs (SFsub 53 1024 x y)) e = true).
Proof.
  intros H. destruct nan_equal as (E0 & E1 & E2).
  assert (X : SFleb (SFabs (SFsub 53 1024 S754_nan (f_ofZ 0))) (f_ofZ 0) = true).
  { apply (H store_nan 0%nat 1%nat); [apply after_reach| | |exact E2].
    - repeat split. intros [|r] [|c] Hr Hc; try lia. exact E0.
    - repeat split. intros [|r] [|c] Hr Hc; try lia. exact E1. }
  discriminate X.
Qed.

Lemma dot_swap_refuted :
  ~ (forall (ms : mats (QT true)) a b h f fb,
       mreach false ms -> shows ms a 1 h f -> shows ms b 1 h fb ->
       mdot ms a b = Ok (fold_sum h (fun i => cmul (f i 0%nat) (fb i 0%nat)))).
Proof.
  intros H.
  assert (Hr : mreach false store_swap2) by apply after_reach.
  pose proof (H _ 0%nat 1%nat 2%nat _ _ Hr (shows_contents _ 0%nat Hr) (shows_contents _ 1%nat Hr)) as X.
  vm_compute in X. discriminate X.
Qed.
(** it can even leave the allocated block *)
Lemma dot_swap_out_of_bounds :
  exists ms : mats (QT true), mreach false ms /\
    m_w (ms 0%nat) = 1%nat /\ m_h (ms 0%nat) = 2%nat /\ m_w (ms 1%nat) = 1%nat /\ m_h (ms 1%nat) = 2%nat /\
    mdot ms 0 1 = UB /\ mvecmag2 ms 0 = UB.
Proof. exists store_swap. split; [apply after_reach|]. repeat split; vm_compute; reflexivity. Qed.

Lemma load_swap_refuted :
  ~ (forall (ms : mats (QT true)) t w h data,
       mreach false ms -> m_w (ms t) = w -> m_h (ms t) = h -> (w * h <= length data)%nat ->
       exists ms', mstep ms (MLoad t data) = Ok ms' /\
         forall r c x, (r < h)%nat -> (c < w)%nat ->
           nth_error data (r * w + c) = Some x -> mget ms' t c r = Ok x).
Proof.
  intros H.
  destruct (H store_swap 0%nat 1%nat 2%nat (qnum [5; 6]%Z) (after_reach _) eq_refl eq_refl (le_n _))
    as (ms' & E & Hx).
  destruct load_swap_wrong as (ms'' & E' & B & _). rewrite E' in E. injection E as <-.
  specialize (Hx 0%nat 0%nat _ ltac:(lia) ltac:(lia) eq_refl). rewrite B in Hx. discriminate Hx.
Qed.
