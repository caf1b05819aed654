(** Concrete cases of C146 and C147. *)
Set Warnings "-notation-overridden,-ambiguous-paths".
From Coq Require Import String ZArith.
From mathcomp Require Import all_ssreflect all_algebra.
From Verif Require Import Py Spec Nd NdProofs Dmx LgpModel LgpTheory IterModel IterProps2 StModel StProps StProps3 DrawModel PoisExModel PypModel PypProps.
Set Implicit Arguments. Unset Strict Implicit. Unset Printing Implicit Defensive.
Import Order.Theory GRing.Theory Num.Theory.
Local Open Scope ring_scope.
Section Ex.
Variable R : rcfType.
(** Two empty Axes, the second current: two vectors meant for the first one. *)
Example C147_given_met : exists s', plot_1D_vecs [:: [:: 1; 2%:R]; [:: 3%:R : R]] None (Some 0%N) true (PyP [:: [::]; [::]] (Some 1%N)) = (s', Ok 0%N) /\
  on_axes s' 0 = [:: DTexts R] /\ size (on_axes s' 1) = 2%N.
Proof.
have [|s' [e _ _ h]] := @C147_vecs_given R [:: [:: 1; 2%:R]; [:: 3%:R]] None true (PyP [:: [::]; [::]] (Some 1%N)) 0 1 isT erefl isT; first by [].
by exists s'; rewrite e !h.
Qed.
(** The sensors (1, 2) and (3, 4). *)
Example C147_sensors_met : let se := Nd [:: 2; 2]%N [:: 1; 2%:R; 3%:R; 4%:R] : nd R in
  exists s', sensor_scatter_plot (ST None None None None None None None (Some se) None None) None (Some [:: 1%N]) (PyP [::] None) = (s', Ok 0%N) /\
    on_axes s' 0 = [:: DPoints [:: 3%:R] [:: 4%:R] None None].
Proof.
move=> se; set t := ST _ _ _ _ _ _ _ _ _ _.
have [s' [e h _]] := @C147_sensors R t se 2 2 (Some [:: 1%N]) (PyP [::] None) None erefl isT erefl isT isT.
by exists s'; split.
Qed.
(** A chain of three points in one dimension. *)
Example C146_met : let p := set_chains (ilp_init (Dmx (1%:M : 'M[R]_1)) None None None None None None)
    [:: [:: Dmx (0 : 'cV[R]_1); Dmx (1 : 'cV[R]_1); Dmx (0 : 'cV[R]_1)]] in
  exists xs ys, (plot_chain_error p (Dmx (0 : 'cV[R]_1))).2 = Ok [:: Curve xs ys] /\ size ys = 2%N /\ nth (-1) xs 1 = 1.
Proof.
move=> p; have [|//|//|//|xs [-> _ h]] := @C146_first_call R 1 p [:: 1; 0] 0; first by [].
by do 2 eexists; split; first reflexivity; split=> //; rewrite h.
Qed.
End Ex.
