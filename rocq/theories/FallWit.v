(** * A body that falls beside a held one. *)

From Coq Require Import Reals.
From Verif Require Import Base Targets State Ode Forces Constraints System SpecState SpecForces SpecSys RegWit SpecDyn SolveWit SpecFlight FlightWit SpecSafe SpecFall.
Local Open Scope nat_scope.

Lemma falls_down dbg k z (dt : R) t n : dt <> 0%R -> 0 < n -> let z := match k with Optimized => Symplectic | Generic => z end in
  exists m (w : world (RT dbg)) y w' y', yreach k nopriv m w y /\ attached w y /\ shaped w y /\ uses k z y /\ weighs w y 10 /\ In 6 (y_bodies y) /\ unbound w y 6 /\
    is_at w 6 (qD 6) (vD 6) (MD 6) /\ process_all k (as_calls [(dt, n, t)]) w y = Ok (w', y') /\ con_count y = 1.
Proof.
  intros Ndt Hn. destruct (flies_down (dbg := dbg) k z dt t n Ndt Hn) as (m & w & y & w' & y' & H1 & H2 & H3 & H4 & H5 & H6 & H7 & H8 & H9 & H10 & H11 & H12 & H13).
  exists m, w, y, w', y'. split; [exact H1|]. split; [exact H2|]. split; [exact H3|]. split; [exact H5|]. split.
  - exists (fun _ => 10%R). rewrite H12. split; [intros g [<-|[]]; exact H13|]. cbn. now rewrite Rplus_0_r.
  - split; [exact H7|]. split; [exact H8|]. split; [exact H10|]. split; [|exact H11].
    cbn [as_calls map process_all fst snd]. match goal with |- (let* _ := ?p in _) = _ => replace p with (Ok (w', y')) by (symmetry; exact H6) end. reflexivity.
Qed.
