(** Cases that meet the hypotheses of C130. *)
Set Warnings "-notation-overridden,-ambiguous-paths".
From mathcomp Require Import all_ssreflect all_algebra.
From Coq Require Import String.
From Verif Require Import Py Nd Spec LinAlg Dmx DmxProofs LgpModel LgpTheory LgpProofs LinProps LinProps3 LinExamples
  DrawModel DrawProps2 DrawProps3 ContModel ContProps ContProps2.
Set Implicit Arguments. Unset Strict Implicit. Unset Printing Implicit Defensive.
Import Order.Theory GRing.Theory Num.Theory.
Local Open Scope ring_scope.

Example ex_string : filter (asked (Some (FigString "map, mud")))%string keys = [:: "map"; "mud"]%string.
Proof. by []. Qed.
Example ex_names : filter (asked (Some (FigNames [:: "mud"; "data"; "tikhonov"])))%string keys = [:: "tikhonov"; "mud"]%string.
Proof. by []. Qed.
Example ex_all : filter (asked (Some (FigString "all")))%string keys = keys /\ filter (asked None) keys = keys.
Proof. by []. Qed.

Section E.
Variable R : rcfType.
Let ns (_ : seq R) : res (seq (seq R)) := Ok [:: [:: 1; -1]].

Example ex_default : exists figs p', run_contours ns None (Some "figures"%string) true (no_overrides R) = (figs, Ok p') /\
  [seq f_saved f | f <- figs] = [:: Some "figures/data_mismatch_contour.png"; Some "figures/tikhonov_contour.png";
    Some "figures/consistent_contour.png"; Some "figures/classical_solution.png";
    Some "figures/consistent_solution.png"; Some "figures/map_compare_contour.png"]%string.
Proof.
have [p [e [ip eS] [fA pC pS] _]] := C130_default R.
have [figs [p' [c [x [x' [x'' [h _ _ _ hs]]]]]]] :=
  @C130_figures R ns (no_overrides R) None (Some "figures"%string) true p _ _ _ _ _ _ _ (1, -1) e ip eS fA pC pS ltr01 erefl.
exists figs, p'; split=> //.
have -> : [seq f_saved f | f <- figs] = [seq s.1 | s <- [seq (f_saved f, f_closed f) | f <- figs]] by rewrite -map_comp.
by rewrite hs.
Qed.

Example ex_two_data : run_contours ns None None true
  (Overrides (Some (Nd [:: 2; 2]%N [:: 1; 0; 0; 1])) (Some None) (Some None) (Some None) (Some None) (Some None) None : overrides R)
  = ([::], Err ValueError).
Proof.
pose A : 'M[R]_2 := 1%:M.
have h2 : holds2 (Nd [:: 2; 2]%N [:: 1; 0; 0; 1 : R]) A.
  by split=> // i j; rewrite !mxE; case: i => [[|[|//]] hi]; case: j => [[|[|//]] hj].
set kw := Overrides _ _ _ _ _ _ _.
pose p := @Lgp R (Dmx A) (Dmx (0 : 'cV_2)) (Dmx (0 : 'cV_2)) (Dmx (0 : 'cV_2)) (Dmx (1%:M : 'M_2)) (Dmx (1%:M : 'M_2)) 1
  None None None None None None.
have e : contour_problem kw = Ok p.
  rewrite /contour_problem /kw; cbn [o_A o_b o_y o_mean o_covi o_covo o_alpha odflt oapp].
  rewrite /lgp_init; cbn [ndim shape size eqn rbind]; rewrite eqxx; cbn [rbind].
  have -> : dmx_of (Nd [:: 2; 2]%N [:: 1; 0; 0; 1 : R]) = Dmx A.
    by rewrite /dmx_of /dbuild; congr Dmx; apply/matrixP => i j; rewrite mxE; case: h2 => _ <-.
  by [].
have ip : inputs p A 0 0 0 1%:M 1 by [].
exact: (@C130_many_data R ns 2 kw None None true p A 0 0 0 1%:M 1%:M 1 e ip erefl isT _ (posdef1 _ _) (posdef1 _ _) ltr01).
Qed.
End E.
