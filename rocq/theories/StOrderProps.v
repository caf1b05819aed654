(** Property C158: the order in which sensors, times and samples are picked does not matter to
    SpatioTemporalProblem.mud_problem with method "wme". *)
Set Warnings "-notation-overridden,-ambiguous-paths".
From mathcomp Require Import all_ssreflect all_algebra.
From Coq Require Import String.
From Verif Require Import Py Nd Xnum XnumProofs UtilModel DensityModel NdProofs DensityProps2 DensityProps3 UtilModel2 UtilProps
  StModel StProps StProps2 StProps3 StProps4 OrderProps.
Set Implicit Arguments. Unset Strict Implicit. Unset Printing Implicit Defensive.
Import Order.Theory GRing.Theory Num.Theory.
Local Open Scope ring_scope.

Section StOrder.
Variable R : rcfType.
Notation nd := (nd R).
Notation st := (st R).
Implicit Types (s : st) (a d lam : nd).
Variables (D : Type) (trunc : R -> R).
Variables (pca_components : nd -> int -> res nd) (svd_v : nd -> res nd).
Notation mud_problem := (st_mud_problem D trunc pca_components svd_v).
Notation init := (density_init D trunc).

Lemma nd2_ext a b n p : nd_wf a -> nd_wf b -> Nd.shape a = [:: n; p] -> Nd.shape b = [:: n; p] -> rows a = rows b -> a = b.
Proof.
case: a => sa da; case: b => sb db; rewrite /nd_wf /= => wa wb ea eb; subst sa sb; rewrite /rows /dim /= => e.
have k (x : seq R) : size x = prodn [:: n; p] -> flatten (reshape (nseq n p) x) = x.
  by move=> h; rewrite reshapeKr // h /prodn /= muln1 sumn_nseq mulnC.
by rewrite -(k _ (eqP wa)) e (k _ (eqP wb)).
Qed.

Lemma col_rows (q : seq R) : rows (Nd [:: size q; 1%N] q) = [seq [:: x] | x <- q].
Proof. by rewrite /rows /dim /=; elim: q => //= x q ih; rewrite ?seq.take0 ?drop0 ih. Qed.
Lemma init_col (X : nd) (q : seq R) dom w b pad : init X (nd1 q) false dom false w b pad = init X (Nd [:: size q; 1%N] q) false dom false w b pad.
Proof.
rewrite /density_init; case: (set_shape _ X) => [X'|e] //=.
have -> : set_shape [:: None; Some 1%N] (nd1 q) = Ok (Nd [:: size q; 1%N] q).
  by rewrite /set_shape /= /np_reshape /wild /known /fill /prodn /= dvd1n divn1.
by [].
Qed.

Variables (s : st) (n p k t : nat) (d lam : nd) (se ti : nd) (sd : R).
Hypotheses (su : setup s n p k t d lam se ti) (ms : s_meas s <> None) (esd : s_sd s = Some sd).
Notation wme_of X T Is := [seq wme_qoi s d t X T sd (size Is) i | i <- Is].

Lemma wme_problemE sm tm xm Is T X sw kc : (xm <> None -> Nd.shape se = [:: k; 2%N]) ->
  picked n sm = Ok Is -> picked t tm = Ok T -> picked k xm = Ok X -> (0 < size X * size T)%N ->
  exists a, [/\ nd_wf a, Nd.shape a = [:: size Is; p], rows a = [seq row_of lam p i | i <- Is] &
    mud_problem s "wme" None sw kc sm tm xm =
    init a (Nd [:: size Is; 1%N] (wme_of X T Is)) false (s_dom s) false sw false (10%:R^-1)].
Proof.
move=> sx eI eT eX w0; have [o [eo ro dd [wl hl] rl]] := residualsE su sx eI eT eX w0 ms esd.
exists (sd_lam o); split=> //.
rewrite /st_mud_problem eo; cbn [rbind]; rewrite ro; cbn [rbind apply_weights].
rewrite /qoi_map String.eqb_refl; cbn [rbind].
rewrite rows_nd2; last by rewrite all_map; apply/allP => i _; rewrite /= size_flatten_blocks.
rewrite init_col; congr density_init.
rewrite !size_map; congr Nd; rewrite -map_comp dd; apply/eq_map => i /=; rewrite /wme_qoi big_flatten /= big_map.
by congr (_ / _); apply: eq_bigr => x _; rewrite big_map.
Qed.

(** Sensors and times picked in another order give the same problem. *)
Theorem C158_sensors_and_times sm tm tm' xm xm' Is T T' X X' sw kc :
  (xm <> None -> Nd.shape se = [:: k; 2%N]) -> (xm' <> None -> Nd.shape se = [:: k; 2%N]) ->
  picked n sm = Ok Is -> picked t tm = Ok T -> picked t tm' = Ok T' -> picked k xm = Ok X -> picked k xm' = Ok X' ->
  perm_eq T T' -> perm_eq X X' -> (0 < size X * size T)%N ->
  mud_problem s "wme" None sw kc sm tm' xm' = mud_problem s "wme" None sw kc sm tm xm.
Proof.
move=> sx sx' eI eT eT' eX eX' pT pX w0.
have w0' : (0 < size X' * size T')%N by rewrite -(perm_size pT) -(perm_size pX).
have [a [wa sa ra ->]] := wme_problemE sw kc sx eI eT eX w0.
have [b [wb sb rb ->]] := wme_problemE sw kc sx' eI eT' eX' w0'.
have -> : b = a by apply: nd2_ext sb sa _ => //; rewrite ra rb.
congr density_init; congr Nd; apply/eq_map => i; rewrite /wme_qoi; congr (_ / _).
by rewrite -(perm_big _ pX) /=; apply: eq_bigr => x _; rewrite (perm_big _ pT).
Qed.

(** Samples picked in another order give the same problem with its samples in that order. *)
Theorem C158_samples sm sm' tm xm Is Is' T X sw kc sh :
  (xm <> None -> Nd.shape se = [:: k; 2%N]) ->
  picked n sm = Ok Is -> picked n sm' = Ok Is' -> picked t tm = Ok T -> picked k xm = Ok X ->
  (0 < size X * size T)%N -> perm_eq sh (iota 0 (size Is)) -> Is' = [seq nth 0%N Is i | i <- sh] -> weights_for (size Is) sw ->
  mud_problem s "wme" None (omap (pcols sh) sw) kc sm' tm xm = rmap (reorder sh) (mud_problem s "wme" None sw kc sm tm xm).
Proof.
move=> sx eI eI' eT eX w0 psh; rewrite -(pickE psh 0%N erefl) => eIs hw.
have [a [wa sa ra ->]] := wme_problemE sw kc sx eI eT eX w0.
have [b [wb sb rb ->]] := wme_problemE (omap (pcols sh) sw) kc sx eI' eT eX w0.
have sI : size Is' = size Is by rewrite eIs (size_pick psh).
set y := Nd _ (wme_of X T Is).
have ha : n_rows (size Is) a by split=> //; rewrite /ndim /dim sa.
have hy : n_rows (size Is) y by split=> //; rewrite /nd_wf /= /prodn /= size_map !muln1.
have [wp np dp] := prows_rows psh ha.
have -> : b = prows sh a.
  apply: nd2_ext (sb) _ _ => //; first by rewrite /= sa sI.
  by rewrite (rows_prows psh ha) ra rb eIs pick_map.
have -> : Nd [:: size Is'; 1%N] (wme_of X T Is') = prows sh y.
  rewrite /prows /= sI; congr Nd.
  have -> : rows y = [seq [:: x] | x <- wme_of X T Is] by rewrite -col_rows size_map.
  by rewrite pick_map flatten_map1 map_id pick_map eIs.
by have [-> _] := @C151_constructor R D trunc (size Is) 1 sh psh a y false (s_dom s) false sw false (10%:R^-1) ha hy erefl hw.
Qed.
End StOrder.
