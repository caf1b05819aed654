(** SpatioTemporalProblem: reference parameter, data, measurements (C57, C58), failing calls. *)
Set Warnings "-notation-overridden,-ambiguous-paths".
From mathcomp Require Import all_ssreflect all_algebra.
From Coq Require Import String.
From Verif Require Import Py Nd Xnum XnumProofs UtilModel DensityModel NdProofs UtilModel2 UtilProps
  StModel StProps.
Set Implicit Arguments. Unset Strict Implicit. Unset Printing Implicit Defensive.
Import Order.Theory GRing.Theory Num.Theory.
Local Open Scope ring_scope.

Section StProps2.
Variable R : rcfType.
Notation nd := (nd R).
Notation st := (st R).
Variables (G : Type) (reseed : int -> res G) (randn : nat -> G -> seq R * G).
Notation srun1 := (srun1 reseed randn).
Notation srun := (srun reseed randn).
Notation sop := (sop R).
Implicit Types (s : st) (a d lam : nd) (h : seq sop) (o : sop).

(** ** C57: lam_ref *)
Lemma lref_checkP (dom : seq (seq R)) xs :
  [/\ (lref_check dom xs = Ok tt <->
       (size xs <= size dom)%N /\
       forall i, (i < size xs)%N -> nth 0 (nth [::] dom i) 0 <= nth 0 xs i <= nth 0 (nth [::] dom i) 1),
      (lref_check dom xs = Err IndexError <->
       (size dom < size xs)%N /\
       forall i, (i < size dom)%N -> nth 0 (nth [::] dom i) 0 <= nth 0 xs i <= nth 0 (nth [::] dom i) 1) &
      forall e, lref_check dom xs = Err e -> e = IndexError \/ e = ValueError].
Proof.
elim: xs dom => [|x xs ih] [|r dom] /=.
- by split=> //; split=> // -[].
- by split=> //; split=> // -[].
- by split=> [||e [<-]]; [split=> [//|[]]|split|left].
have [i1 i2 i3] := ih dom.
case: ifP => [c|c].
  have bad n : ~ (forall i, (i < n.+1)%N -> nth 0 (nth [::] (r :: dom) i) 0 <= nth 0 (x :: xs) i
                    <= nth 0 (nth [::] (r :: dom) i) 1).
    by move/(_ 0%N isT) => /= /andP [b1 b2]; move: c; rewrite !ltNge b1 b2.
  by split=> [||e [<-]]; [split=> [//|[_ /bad]]|split=> [//|[_ /bad]]|right].
have good : nth 0 r 0 <= x <= nth 0 r 1.
  by move/negbT: c; rewrite negb_or -!leNgt.
split=> //; rewrite ?i1 ?i2; split=> -[h1 h2]; split=> //.
- by case=> [|i] //= hi; apply: h2.
- by move=> i hi; apply: (h2 i.+1).
- by case=> [|i] //= hi; apply: h2.
- by move=> i hi; apply: (h2 i.+1).
Qed.

(** lam_ref is accepted exactly when a domain is set, there are no more values than
    intervals, and each value lies in its interval; then it is stored flat.  Without a domain:
    AttributeError; too many values, the first ones inside: IndexError; otherwise ValueError.
    A shorter vector than the number of parameters is accepted. *)
Theorem C57_accepts_iff s a :
  [/\ (set_lref s a).2 = Ok tt <->
      (exists d, [/\ s_dom s = Some d, (size (data a) <= dim d 0)%N &
         forall i, (i < size (data a))%N -> ent d i 0 <= nth 0 (data a) i <= ent d i 1]),
      ((set_lref s a).2 = Ok tt -> (set_lref s a).1 = with_lref s (data a)),
      ((set_lref s a).2 <> Ok tt -> (set_lref s a).1 = s),
      ((set_lref s a).2 = Err AttributeError <-> s_dom s = None) &
      ((set_lref s a).2 = Err IndexError <->
       exists d, [/\ s_dom s = Some d, (dim d 0 < size (data a))%N &
         forall i, (i < dim d 0)%N -> ent d i 0 <= nth 0 (data a) i <= ent d i 1])].
Proof.
rewrite /set_lref; case ed: (s_dom s) => [d|] /=; last first.
  split=> //; first by split=> // -[d []].
  by split=> // -[d []].
have [c1 c2 c3] := lref_checkP (rows d) (data a); rewrite !size_rows in c1 c2.
case el: (lref_check (rows d) (data a)) => [[]|e] /=; rewrite el in c1 c2 c3.
- split=> //.
  + by split=> // _; exists d; split=> //; have [] := c1.1 erefl.
  + split=> [//|[d' [[<-] h1 h2]]]; suff: Ok tt = Err IndexError by [].
    by apply/c2.
- split=> //.
  + by split=> [//|[d' [[<-] h1 h2]]]; suff: Err e = Ok tt by []; apply/c1.
  + by split=> // -[e1]; case: (c3 e erefl) => e2; move: e1; rewrite e2.
  + split=> [h|[d' [[<-] h1 h2]]]; first by exists d; split=> //; have [] := c2.1 h.
    by apply/c2.
Qed.

(** Calls that do not touch the domain and the reference. *)
Definition keeps_ref o : bool :=
  match o with SLam _ | SDomain _ | SLref _ | SLoad _ _ => false | _ => true end.

Lemma keeps_ref1 sg o : keeps_ref o ->
  s_dom (srun1 sg o).1.1 = s_dom sg.1 /\ s_lref (srun1 sg o).1.1 = s_lref sg.1.
Proof.
case: sg => s g; case: o => [//|//|//|a|a|a|x|a|a|x|a x k|//] /= _ //.
- case ed: (data_2d a) => [d|e]; last by rewrite /set_data ed.
  rewrite (set_dataE s ed); case: (s_sens s) => [se|]; case: (s_times s) => [ti|] //.
  + by case: (shape0 ti) => [?|?] //; case: (shape0 se) => [?|?] //; case: ifP.
  + by case: (shape0 se) => [?|?] //; case: ifP.
  + by case: (shape0 ti) => [?|?] //; case: ifP.
- by rewrite /set_meas; case: (meas_reshape _ _).
- by rewrite /set_tv; case: (meas_reshape _ _).
- by rewrite /set_dist; case: ifP.
- rewrite /measurements_from_reference.
  set s1 := (if a is Some b then with_tv s (NArr b) else s).
  have [i1 j1] : s_dom s1 = s_dom s /\ s_lref s1 = s_lref s by rewrite /s1; case: (a).
  set s2 := (if x is Some y then with_sd s1 (Some y) else s1).
  have [i2 j2] : s_dom s2 = s_dom s1 /\ s_lref s2 = s_lref s1 by rewrite /s2; case: (x).
  rewrite -i1 -j1 -i2 -j2; clearbody s2.
  case: (s_tv s2) => [[tv|]|] //; case: (s_sd s2) => [y|] //.
    case: (add_noise _ _ _ _ _ _) => g' [y'|e] //=.
    by rewrite /set_meas; case: (meas_reshape _ _).
  by case: (add_noise _ _ _ _ _ _).
Qed.

(** C57: after any history, a successful lam_ref assignment and any calls that set neither lam,
    domain nor lam_ref (nor load), the stored reference lies inside the stored domain. *)
Theorem C57_reference_inside g h1 a h2 : all keeps_ref h2 ->
  let sg1 := srun (st0 R, g) h1 in
  (srun1 sg1 (SLref a)).2 = Ok tt ->
  let s2 := (srun (st0 R, g) (h1 ++ SLref a :: h2)).1 in
  exists d, [/\ s_dom s2 = Some d, s_lref s2 = Some (data a), (size (data a) <= dim d 0)%N &
    forall i, (i < size (data a))%N -> ent d i 0 <= nth 0 (data a) i <= ent d i 1].
Proof.
move=> kp sg1 r s2.
have -> : s2 = (srun (srun1 sg1 (SLref a)).1 h2).1 by rewrite /s2 /srun foldl_cat.
have [-> ->] : s_dom (srun (srun1 sg1 (SLref a)).1 h2).1 = s_dom (srun1 sg1 (SLref a)).1.1 /\
          s_lref (srun (srun1 sg1 (SLref a)).1 h2).1 = s_lref (srun1 sg1 (SLref a)).1.1.
  elim: h2 (srun1 sg1 (SLref a)).1 kp {s2} => [//|o h2 ih] sg /= /andP [k1 k2].
  by have [-> ->] := ih (srun1 sg o).1 k2; apply: keeps_ref1.
clearbody sg1; case: sg1 r => s g' /= r.
have [c1 c2 _ _ _] := C57_accepts_iff s a; have [d [ed sz ins]] := c1.1 r.
by exists d; rewrite (c2 r) /=.
Qed.

(** ** C58: data, measurements and true values fit the sensors and times *)
(** The number of values per sample a data argument stands for. *)
Definition width a : nat :=
  match Nd.shape a with [:: _] => 1 | [:: _; p] => p | [:: _; p; q] => p * q | _ => 0 end.

Lemma data_2dE a : arr_ok 3 a ->
  if (ndim a == 3%N) && (dim a 0 == 0%N) then data_2d a = Err ValueError
  else data_2d a = Ok (Nd [:: dim a 0; width a] (data a)).
Proof.
case/andP=> wf; case: a wf => -[|n [|p [|q [|r sh]]]] da //= wf _.
- rewrite /data_2d /ndim /= reshape_col2 // /dim /width /=.
  by move/eqP: wf => /= ->; rewrite /prodn /= muln1.
- rewrite /data_2d /ndim /dim /width /=; move/eqP: wf; rewrite /= /prodn /= muln1 => sz.
  rewrite /np_reshape /wild /known /fill /prodn /= muln1 sz.
  case: eqP => [->//|/eqP n0]; rewrite lt0n n0 dvdn_mulr //= mulKn // lt0n //.
Qed.

(** Sizes recorded for sensors or times: None when unset. *)
Definition count_of (x : option nd) : option nat := if x is Some b then Some (dim b 0) else None.
Definition axis_ok (x : option nd) : bool := if x is Some b then (0 < ndim b)%N else true.

(** C58: data is accepted exactly when its width fits: any width if neither sensors nor times
    are set (then one sensor and width times are recorded), the number of sensors or of times
    if only these are set (then one time / one sensor is recorded), their product if both
    are; a 3-D array needs at least one sample.  The entries are stored unchanged, one row
    per sample, and then width = sensors * times. *)
Theorem C58_data_accepts_iff s a : arr_ok 3 a -> axis_ok (s_sens s) -> axis_ok (s_times s) ->
  let w := width a in
  let fits := match count_of (s_sens s), count_of (s_times s) with
              | None, None => true | Some k, None => k == w | None, Some t => t == w
              | Some k, Some t => (k * t)%N == w end in
  if fits && ((ndim a != 3%N) || (dim a 0 != 0%N)) then
    exists s' k t, [/\ set_data s a = (s', Ok tt),
      s_data s' = Some (Nd [:: dim a 0; w] (data a)),
      n_sensors s' = Ok k /\ n_ts s' = Ok t, (k * t)%N = w &
      (s_dom s', s_lam s', s_lref s', s_meas s') = (s_dom s, s_lam s, s_lref s, s_meas s) /\
      (forall b, s_sens s = Some b -> s_sens s' = Some b) /\
      (forall b, s_times s = Some b -> s_times s' = Some b)]
  else set_data s a = (s, Err ValueError).
Proof.
move=> ok ax at_ w fits; have := data_2dE ok.
case nz: ((ndim a == 3%N) && (dim a 0 == 0%N)) => e2.
  move/andP: nz => [/eqP -> /eqP ->]; rewrite /= andbF.
  by rewrite /set_data e2.
have -> : (ndim a != 3%N) || (dim a 0 != 0%N) by rewrite -negb_and nz.
rewrite andbT (set_dataE s e2) /fits {fits}; set d := Nd _ _ in e2 *.
have dw : dim d 1 = w by [].
have sh b : (0 < ndim b)%N -> shape0 b = Ok (dim b 0) by move=> q; rewrite /shape0 eqn0Ngt q.
case es: (s_sens s) ax => [se|] ax; case et: (s_times s) at_ => [ti|] at_ /=; rewrite ?sh // dw.
- rewrite [(dim ti 0 * _)%N]mulnC; case c: (_ == w) => //; move/eqP: (c) => e.
  exists (with_data s d), (dim se 0), (dim ti 0); rewrite /n_sensors /n_ts /= es et /= !sh //.
- case c: (_ == w) => //; move/eqP: (c) => e; exists (with_data (with_times s (Some (arr0 R))) d), (dim se 0), 1%N.
  rewrite /n_sensors /n_ts /= es /= ?sh //.
  by split; rewrite ?muln1 //; split=> //; split=> b // [<-].
- case c: (_ == w) => //; move/eqP: (c) => e; exists (with_data (with_sens s (Some (arr0 R))) d), 1%N, (dim ti 0).
  rewrite /n_sensors /n_ts /= et /= ?sh //.
  by split; rewrite ?mul1n //; split=> //; split=> b // [<-].
- exists (with_data (with_times (with_sens s (Some (arr0 R))) (Some (arange R w))) d), 1%N, w.
  split; rewrite ?mul1n //; rewrite /n_sensors /n_ts /=.
  by split=> //; rewrite /shape0 /dim /= size_map size_iota.
Qed.

(** C58: measurements and true values are accepted exactly when sensors and times are set and
    the number of values is sensors * times; they are stored as a column.  Sensors or times
    unset: AttributeError; other sizes: ValueError. *)
Theorem C58_measurements_accepts_iff s a : nd_wf a -> axis_ok (s_sens s) -> axis_ok (s_times s) ->
  let put (f : st -> narr R -> st) := 
    match count_of (s_sens s), count_of (s_times s) with
    | Some k, Some t => if size (data a) == (k * t)%N
                        then (f s (NArr (Nd [:: (k * t)%N; 1%N] (data a))), Ok tt)
                        else (s, Err ValueError)
    | _, _ => (s, Err AttributeError)
    end in
  set_meas s (Some a) = put (@with_meas R) /\ set_tv s (Some a) = put (@with_tv R).
Proof.
move=> wf ax at_; rewrite /set_meas /set_tv /meas_reshape /n_sensors /n_ts.
have sh b : (0 < ndim b)%N -> shape0 b = Ok (dim b 0) by move=> q; rewrite /shape0 eqn0Ngt q.
case: (s_sens s) ax => [se|] ax //=; rewrite ?sh //=.
case: (s_times s) at_ => [ti|] at_ //=; rewrite ?sh //=.
rewrite /np_reshape /wild /known /fill /prodn /= !muln1 eq_sym.
by case: ifP.
Qed.

(** A single setter that raises leaves the object exactly as it was (on every reachable
    object). *)
Definition single o : bool := match o with SRef _ _ _ | SLoad _ _ => false | _ => true end.
Theorem C58_failing_setters_keep g h o e : hist_ok h -> op_ok o -> single o ->
  let sg := srun (st0 R, g) h in (srun1 sg o).2 = Err e -> (srun1 sg o).1 = sg.
Proof.
move=> okh oko so sg; have [i1 i2 i3] : st_inv sg.1 by apply: srun_inv.
clearbody sg; case: sg i1 i2 i3 => s g' /= i1 i2 i3.
have dom b : (set_domain s b).2 = Err e -> (set_domain s b).1 = s.
  by rewrite /set_domain; case: (rbind _ _).
case: o oko so => [a|a|a|a|a|a|x|a|a|x|a x k|ds names] //= ok _ er; rewrite /keep_g /=; congr (_, _).
- move: er; case ed: (s_dom s) => [d|].
    by rewrite (C56_lam_with_domain ok ed); case: ifP.
  case el: (s_lam s) => [l|]; first by have [_ [d]] := i1 _ el; rewrite ed.
  have := C56_lam_without_domain ok ed el.
  by case: ifP => _ => [[d [s' [-> _ _ _ _]]]|->].
- by have [_ _ -> //] := C57_accepts_iff s a; rewrite er.
- exact: dom.
- move: er; case e2: (data_2d a) => [d|e']; last by rewrite /set_data e2.
  rewrite (set_dataE s e2).
  case: (s_sens s) => [se|]; case: (s_times s) => [ti|] //.
  + by case: (shape0 ti) => [?|?] //; case: (shape0 se) => [?|?] //; case: ifP.
  + by case: (shape0 se) => [?|?] //; case: ifP.
  + by case: (shape0 ti) => [?|?] //; case: ifP.
- by move: er; rewrite /set_meas; case: (meas_reshape _ _).
- by move: er; rewrite /set_tv; case: (meas_reshape _ _).
- by move: er; rewrite /set_dist; case: ifP.
Qed.

(** Calls that assign neither sensors, times nor data. *)
Definition keeps_data o : bool :=
  match o with SSens _ | STimes _ | SData _ | SLoad _ _ => false | _ => true end.

Lemma keeps_data1 sg o : keeps_data o -> let s' := (srun1 sg o).1.1 in
  [/\ s_data s' = s_data sg.1, s_sens s' = s_sens sg.1 & s_times s' = s_times sg.1].
Proof.
have D s a : [/\ s_data (set_domain s a).1 = s_data s, s_sens (set_domain s a).1 = s_sens s
                & s_times (set_domain s a).1 = s_times s].
  by rewrite /set_domain; case: (rbind _ _).
case: sg => s g; case: o => [a|a|a|//|a|a|x|//|//|x|a x k|//] /= _ //.
- rewrite /set_lam; case: (if _ then _ else _) => [lam|e] //=.
  have fin (m : st * res unit) : [/\ s_data m.1 = s_data s, s_sens m.1 = s_sens s & s_times m.1 = s_times s] ->
    let s' := (sbind m (fun s _ => sbind (if s_dist s is None then set_dist s "u" else (s, Ok tt))
                                      (fun s _ => (with_lam s lam, Ok tt)))).1 in
    [/\ s_data s' = s_data s, s_sens s' = s_sens s & s_times s' = s_times s].
    by case: m => s' [u|e] //= [<- <- <-]; case: (s_dist s').
  case: (s_dom s) => [d|]; first by apply: fin; rewrite /lift.
  by case: (bounds_of lam) => [mm|e] //; apply: fin.
- by rewrite /set_lref; case: (s_dom s) => [d|] //; case: (lref_check _ _).
- by rewrite /set_meas; case: (meas_reshape _ _).
- by rewrite /set_tv; case: (meas_reshape _ _).
- by rewrite /set_dist; case: ifP.
- rewrite /measurements_from_reference.
  set s1 := (if a is Some b then with_tv s (NArr b) else s).
  have [i1 j1 k1] : [/\ s_data s1 = s_data s, s_sens s1 = s_sens s & s_times s1 = s_times s].
    by rewrite /s1; case: (a).
  set s2 := (if x is Some y then with_sd s1 (Some y) else s1).
  have [i2 j2 k2] : [/\ s_data s2 = s_data s1, s_sens s2 = s_sens s1 & s_times s2 = s_times s1].
    by rewrite /s2; case: (x).
  rewrite -i1 -j1 -k1 -i2 -j2 -k2; clearbody s2.
  case: (s_tv s2) => [[tv|]|] //; case: (s_sd s2) => [y|] //.
    case: (add_noise _ _ _ _ _ _) => g' [y'|e] //=.
    by rewrite /set_meas; case: (meas_reshape _ _).
  by case: (add_noise _ _ _ _ _ _).
Qed.

(** C58: after any history, a successful data assignment and any calls assigning neither data,
    sensors nor times (nor load), the data has sensors * times columns. *)
Theorem C58_width_is_sensors_times g h1 a h2 : hist_ok h1 -> arr_ok 3 a -> all keeps_data h2 ->
  let sg1 := srun (st0 R, g) h1 in
  axis_ok (s_sens sg1.1) -> axis_ok (s_times sg1.1) ->
  (srun1 sg1 (SData a)).2 = Ok tt ->
  let s2 := (srun (st0 R, g) (h1 ++ SData a :: h2)).1 in
  exists d k t, [/\ s_data s2 = Some d, data d = data a, n_sensors s2 = Ok k, n_ts s2 = Ok t &
    Nd.shape d = [:: dim a 0; (k * t)%N]].
Proof.
move=> ok oka kp sg1 ax at_ r s2.
have -> : s2 = (srun (srun1 sg1 (SData a)).1 h2).1 by rewrite /s2 /srun foldl_cat.
have [e1 e2 e3] : let s' := (srun (srun1 sg1 (SData a)).1 h2).1 in let s0 := (srun1 sg1 (SData a)).1.1 in
    [/\ s_data s' = s_data s0, s_sens s' = s_sens s0 & s_times s' = s_times s0].
  elim: h2 (srun1 sg1 (SData a)).1 kp {s2} => [//|o h2 ih] sg /= /andP [k1 k2].
  by have [-> -> ->] := ih (srun1 sg o).1 k2; apply: keeps_data1.
clear kp s2; move: e1 e2 e3; set s3 := (srun _ _).1 => e1 e2 e3; clearbody s3.
clear ok; clearbody sg1; case: sg1 ax at_ r s3 e1 e2 e3 => s g' /= ax at_ r s3 e1 e2 e3.
have := C58_data_accepts_iff oka ax at_.
cbv zeta; case: ifP => [_ [s' [k [t [e e' [n1 n2] kt _]]]]|_ e]; last by move: r; rewrite e.
exists (Nd [:: dim a 0; width a] (data a)), k, t.
by rewrite /n_sensors /n_ts e1 e2 e3 e /= e' kt.
Qed.
End StProps2.
