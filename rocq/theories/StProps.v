(** SpatioTemporalProblem: what the setters guarantee (C56-C58). *)
Set Warnings "-notation-overridden,-ambiguous-paths".
From mathcomp Require Import all_ssreflect all_algebra.
From Coq Require Import String.
From Verif Require Import Py Nd Xnum XnumProofs UtilModel DensityModel NdProofs UtilModel2 UtilProps StModel.
Set Implicit Arguments. Unset Strict Implicit. Unset Printing Implicit Defensive.
Import Order.Theory GRing.Theory Num.Theory.
Local Open Scope ring_scope.

Section StProps.
Variable R : rcfType.
Notation nd := (nd R).
Notation st := (st R).
Variables (G : Type) (reseed : int -> res G) (randn : nat -> G -> seq R * G).
Notation srun1 := (srun1 reseed randn).
Notation srun := (srun reseed randn).
Notation sop := (sop R).
Implicit Types (s : st) (a d lam : nd) (h : seq sop) (o : sop).

(** ** Specification *)
(** Entry (i, j) of a 2-D array. *)
Definition ent a i j : R := nth 0 (nth [::] (rows a) i) j.

(** Every sample lies in the box: sample i, parameter j is between the bounds in row j. *)
Definition inside d lam : Prop :=
  dim d 0 = dim lam 1 /\
  forall i j, (i < dim lam 0)%N -> (j < dim lam 1)%N -> ent d j 0 <= ent lam i j <= ent d j 1.

(** The 2-D array a 1-D or 2-D argument stands for: 1-D is one column. *)
Definition col2 a : nd := if ndim a == 1%N then Nd [:: size (data a); 1%N] (data a) else a.

(** Arrays passed to the setters: real arrays of one or two dimensions (data: up to three). *)
Definition arr_ok (k : nat) a : bool := nd_wf a && (0 < ndim a <= k)%N.

(** Which value of a data set [load] would assign to field [f], if any. *)
Definition named (ds : dset R) (names : string -> nameval R) (f : string) : option (pyv R) :=
  if lookup ds f is Some _ then
    match names f with NName k => lookup ds k | NVal (VStr k) => lookup ds k | NVal _ => None end
  else match names f with NVal VNone | NVal (VStr _) | NName _ => None | NVal v => Some v end.
Definition val_ok (f : string) (v : pyv R) : bool :=
  match v with
  | VArr a => if (f =? "lam")%string then arr_ok 2 a
              else if (f =? "data")%string then arr_ok 3 a else nd_wf a
  | _ => true
  end.
Definition load_ok (ds : dset R) (names : string -> nameval R) : Prop :=
  forall f v, named ds names f = Some v -> val_ok f v.

Definition op_ok (o : sop) : Prop :=
  match o with
  | SLam a => arr_ok 2 a
  | SData a => arr_ok 3 a
  | SLref a | SDomain a | SMeas a | STv a => nd_wf a
  | SSens (Some a) | STimes (Some a) | SRef (Some a) _ _ => nd_wf a
  | SLoad ds names => load_ok ds names
  | _ => True
  end.
Definition hist_ok h : Prop := foldr (fun o P => op_ok o /\ P) True h.

(** ** Reshaping *)
Lemma reshape_col2 a : nd_wf a -> ndim a = 1%N ->
  np_reshape [:: None; Some 1%N] a = Ok (Nd [:: size (data a); 1%N] (data a)).
Proof. by move=> wf n1; rewrite /np_reshape /wild /known /fill /= dvd1n divn1. Qed.

Lemma reshape2 a : np_reshape [:: None; Some 2%N] a =
  if (2 %| size (data a))%N then Ok (Nd [:: (size (data a) %/ 2)%N; 2%N] (data a)) else Err ValueError.
Proof. by rewrite /np_reshape /wild /known /fill /prodn /= muln1. Qed.

(** A domain array: k rows of two bounds. *)
Definition dom_wf d : bool := nd_wf d && (Nd.shape d == [:: dim d 0; 2%N]).
Definition mat_wf a : bool := nd_wf a && (ndim a == 2%N).

Lemma dom_wfE d : dom_wf d -> [/\ nd_wf d, ndim d = 2%N & dim d 1 = 2%N].
Proof. by case/andP=> wf /eqP e; split=> //; rewrite /ndim /dim e. Qed.

Lemma reshape2_wf a d : np_reshape [:: None; Some 2%N] a = Ok d -> dom_wf d.
Proof.
rewrite reshape2; case: ifP => // h [<-]; rewrite /dom_wf /nd_wf /= /prodn /= muln1 divnK //.
by rewrite /dim /= !eqxx.
Qed.

Lemma col2_wf a : arr_ok 2 a -> mat_wf (col2 a).
Proof.
case/andP=> wf; rewrite /mat_wf /col2; case: eqP => [n1 _|n1 hn].
  by rewrite /nd_wf /prodn /= !muln1 eqxx.
by rewrite wf /=; case/andP: hn; case: (ndim a) n1 => [|[|[|]]].
Qed.

Lemma lam_col2 a : nd_wf a ->
  (if ndim a == 1%N then np_reshape [:: None; Some 1%N] a else Ok a) = Ok (col2 a).
Proof. by move=> wf; rewrite /col2; case: eqP => // n1; rewrite reshape_col2. Qed.

Lemma bounds_wf lam mm : bounds_of lam = Ok mm -> dom_wf mm /\ dim mm 0 = dim lam 1.
Proof.
rewrite /bounds_of; case: ifP => // _ [<-].
set bs := [seq _ | j <- _]; have sz : size bs = dim lam 1 by rewrite size_map size_iota.
have ab : all (fun q => size q == 2%N) bs by rewrite all_map; apply/allP.
split; last by rewrite /dim /= sz.
rewrite /dom_wf /= eqxx andbT /nd_wf /= size_flatten /seq.shape /prodn /= muln1.
by elim: (bs) ab => //= q l ih /andP [/eqP -> /ih /eqP ->]; rewrite mulSn.
Qed.

Lemma bounds_rows lam mm j : (0 < dim lam 0)%N -> bounds_of lam = Ok mm -> (j < dim lam 1)%N ->
  col_range lam j (ent mm j 0) (ent mm j 1).
Proof.
move=> l0; rewrite /bounds_of eqn0Ngt l0 /= => -[<-] hj; rewrite /ent rows_nd2; last first.
  by rewrite all_map; apply/allP.
rewrite (nth_map 0%N) ?size_iota // nth_iota // add0n /=.
have c0 : (0 < size (column lam j))%N by rewrite size_map size_rows.
split; [exact: np_min_in|exact: np_max_in|].
by move=> x hx; rewrite np_min_le // np_max_ge.
Qed.

Lemma reshape2_id d : dom_wf d -> np_reshape [:: None; Some 2%N] d = Ok d.
Proof.
case/andP => /eqP wf /eqP sh; rewrite reshape2 wf sh /prodn /= muln1 dvdn_mull // mulnK //.
by rewrite -sh; case: d {wf sh}.
Qed.

(** ** Single setters: the exact effect *)
(** lam on an object that has a domain: accepted exactly when the number of columns is the
    number of domain rows, and stored without looking at the values. *)
Theorem C56_lam_with_domain s a d : arr_ok 2 a -> s_dom s = Some d ->
  set_lam s a = if dim (col2 a) 1 == dim d 0
                then (with_lam (if s_dist s is None then with_dist s "u" else s) (col2 a), Ok tt)
                else (s, Err ValueError).
Proof.
case/andP=> wf _ e; rewrite /set_lam lam_col2 // e /lift /guard; case: ifP => //= _.
by case es: (s_dist s).
Qed.

(** lam on an object without a domain: the domain becomes the range of the samples. *)
Theorem C56_lam_without_domain s a : arr_ok 2 a -> s_dom s = None -> s_lam s = None ->
  if (0 < dim (col2 a) 0)%N || (dim (col2 a) 1 == 0)%N then
    exists d s', [/\ set_lam s a = (s', Ok tt), s_dom s' = Some d, s_lam s' = Some (col2 a),
      Nd.shape d = [:: dim (col2 a) 1; 2%N] &
      forall j, (j < dim (col2 a) 1)%N -> (0 < dim (col2 a) 0)%N ->
        col_range (col2 a) j (ent d j 0) (ent d j 1)]
  else set_lam s a = (s, Err ValueError).
Proof.
case/andP=> wf _ ed el; rewrite /set_lam lam_col2 // ed; move: (col2 a) => lam.
case bl: (bounds_of lam) => [mm|e].
- have [wm dm] := bounds_wf bl.
  have -> : (0 < dim lam 0)%N || (dim lam 1 == 0)%N.
    by move: bl; rewrite /bounds_of lt0n; case: (dim lam 0 == 0%N) => //=; case: eqP.
  have sm : Nd.shape mm = [:: dim lam 1; 2%N] by case/andP: (wm) => _ /eqP ->; rewrite dm.
  rewrite /set_domain reshape2_id // el /=.
  exists mm; case es: (s_dist s) => [x|] /=; eexists; split; try by [].
  + by move=> j hj l0; apply: bounds_rows.
  + by move=> j hj l0; apply: bounds_rows.
- move: bl; rewrite /bounds_of lt0n; case: (dim lam 0 == 0%N); cbn [andb negb orb]; last by [].
  by case: (dim lam 1 == 0%N); cbn [negb]; [discriminate|move=> [<-]].
Qed.

(** ** The invariant of reachable objects *)
Definition st_inv s : Prop :=
  [/\ (forall lam, s_lam s = Some lam -> mat_wf lam /\ exists d, s_dom s = Some d),
      (forall d, s_dom s = Some d -> dom_wf d) &
      (forall d, s_data s = Some d -> mat_wf d)].

Lemma st0_inv : st_inv (st0 R).
Proof. by []. Qed.

Lemma data_2d_wf a d : arr_ok 3 a -> data_2d a = Ok d -> mat_wf d.
Proof.
rewrite /data_2d; case/andP=> wf hn; case: eqP => [n1|n1].
  by rewrite reshape_col2 // => -[<-]; rewrite /mat_wf /nd_wf /prodn /= !muln1 eqxx.
case: eqP => [n3|n3]; last first.
  move=> [<-]; rewrite /mat_wf wf /=; case/andP: hn.
  by case: (ndim a) n1 n3 => [|[|[|[|]]]].
rewrite /np_reshape /wild /known /fill /=; case: ifP => // /andP [p0 dv] [<-].
rewrite /prodn /= muln1 in p0 dv.
by rewrite /mat_wf /nd_wf /prodn /= !muln1 mulnC divnK // !eqxx.
Qed.

Lemma set_domain_inv s a : st_inv s -> st_inv (set_domain s a).1.
Proof.
move=> [i1 i2 i3]; rewrite /set_domain; case: (np_reshape _ a) (@reshape2_wf a) => [d|e] //= wd.
set t := match s_lam s with Some _ => _ | None => _ end; case: t => [x|e] //=.
split=> //= [lam /i1 [w [d' e]]|d' [<-]]; first by split=> //; exists d.
exact: wd.
Qed.

Lemma set_dist_inv s x : st_inv s -> st_inv (set_dist s x).1.
Proof. by rewrite /set_dist; case: ifP. Qed.

Lemma set_lam_inv s a : arr_ok 2 a -> st_inv s -> st_inv (set_lam s a).1.
Proof.
move=> ok inv; case/andP: (ok) => wf _; rewrite /set_lam lam_col2 //.
have fin (m : st * res unit) : st_inv m.1 -> (forall u, m.2 = Ok u -> exists d, s_dom m.1 = Some d) ->
    st_inv (sbind m (fun s _ => sbind (if s_dist s is None then set_dist s "u" else (s, Ok tt))
                                      (fun s _ => (with_lam s (col2 a), Ok tt)))).1.
  case: m => s' [u|e] //= [i1 i2 i3] /(_ u erefl) [d e].
  case es: (s_dist s') => [x|] /=; split=> //= lam [<-].
    by split; [exact: col2_wf|exists d].
  by split; [exact: col2_wf|exists d].
case ed: (s_dom s) => [d|].
  by apply: fin => [//|u _]; exists d.
case: (bounds_of _) => [mm|e] //.
apply: fin; first exact: set_domain_inv.
move=> u; rewrite /set_domain; case: (np_reshape _ mm) => [d|e] //=.
by set t := match s_lam s with Some _ => _ | None => _ end; case: t => //= x _; exists d.
Qed.

Lemma set_lref_inv s a : st_inv s -> st_inv (set_lref s a).1.
Proof. by rewrite /set_lref; case: (s_dom s) => [d|] //; case: (lref_check _ _). Qed.

Lemma set_meas_inv s (a : option nd) : st_inv s -> st_inv (set_meas s a).1.
Proof. by rewrite /set_meas; case: (meas_reshape s a). Qed.
Lemma set_tv_inv s (a : option nd) : st_inv s -> st_inv (set_tv s a).1.
Proof. by rewrite /set_tv; case: (meas_reshape s a). Qed.

(** The data setter, exactly: the widths it accepts and what it stores. *)
Definition sizes (o : option nd) : res (option nat) :=
  match o with None => Ok None | Some a => rmap Some (shape0 a) end.

Lemma set_dataE s a d : data_2d a = Ok d ->
  set_data s a =
  match s_sens s, s_times s with
  | None, None => (with_data (with_times (with_sens s (Some (arr0 R))) (Some (arange R (dim d 1)))) d, Ok tt)
  | Some se, None => match shape0 se with
                     | Ok k => if k == dim d 1 then (with_data (with_times s (Some (arr0 R))) d, Ok tt)
                               else (s, Err ValueError)
                     | Err e => (s, Err e)
                     end
  | None, Some ti => match shape0 ti with
                     | Ok k => if k == dim d 1 then (with_data (with_sens s (Some (arr0 R))) d, Ok tt)
                               else (s, Err ValueError)
                     | Err e => (s, Err e)
                     end
  | Some se, Some ti => match shape0 ti, shape0 se with
                        | Ok t, Ok k => if (t * k)%N == dim d 1 then (with_data s d, Ok tt)
                                        else (s, Err ValueError)
                        | Err e, _ | _, Err e => (s, Err e)
                        end
  end.
Proof.
move=> e; rewrite /set_data e {e}; case: s => dom lam lref dat me tv di [se|] [ti|] sd /=.
- rewrite /lift; case: (shape0 ti) => [t|?] //=; case: (shape0 se) => [k|?] //=.
  by rewrite /guard; case: ifP.
- rewrite /lift; case e2: (shape0 se) => [k|?] //=; rewrite /guard; case: ifP => //= ek.
  by rewrite e2 /= mul1n ek.
- rewrite /lift; case e2: (shape0 ti) => [k|?] //=; rewrite /guard; case: ifP => //= ek.
  by rewrite e2 /= muln1 ek.
- by rewrite /dim /= size_map size_iota muln1 /guard eqxx.
Qed.

Lemma set_data_inv s a : arr_ok 3 a -> st_inv s -> st_inv (set_data s a).1.
Proof.
move=> ok [i1 i2 i3]; case ed: (data_2d a) => [d|e]; last by rewrite /set_data ed.
have wd := data_2d_wf ok ed; rewrite (set_dataE s ed).
have K s' : s_lam s' = s_lam s -> s_dom s' = s_dom s -> st_inv (with_data s' d).
  by move=> e1 e2; split=> //= [lam|d'|d' [<-]]; rewrite ?e1 ?e2 //; [exact: i1|exact: i2].
case: (s_sens s) => [se|]; case: (s_times s) => [ti|] /=; last exact: K.
- case: (shape0 ti) => [t|e] //; case: (shape0 se) => [k|e] //.
  by case: ifP => _ //=; apply: K.
- by case: (shape0 se) => [k|e] //; case: ifP => _ //=; apply: K.
- by case: (shape0 ti) => [k|e] //; case: ifP => _ //=; apply: K.
Qed.

Lemma set_field_inv s f v : val_ok f v -> st_inv s -> st_inv (set_field s f v).1.
Proof.
move=> ok i; rewrite /set_field.
case: ifP => [_|_]; first by case: v {ok} => // x; apply: set_dist_inv.
case: ifP => [_|_]; first by case: v {ok} => // x; apply: set_domain_inv.
case: ifP => [_|_]; first by case: v {ok}.
case: ifP => [_|_]; first by case: v {ok}.
case: ifP => [_|_].
  by case: v {ok} => [|x|x|x]; try exact: set_lref_inv; case: (s_dom s) => // d; case: ifP.
case: ifP => [_|_]; first by case: v {ok}.
case: ifP => [_|_]; first by case: v {ok} => // *; apply: set_tv_inv.
case: ifP => [_|_]; first by case: v {ok} => // *; apply: set_meas_inv.
case: ifP => [e|_].
  case: v ok => [_|x|x _|x _]; try by case: (s_dom s).
  by rewrite /val_ok e => ok; apply: set_lam_inv.
case: ifP => [e|_] //.
case: v ok => // x; rewrite /val_ok e; case: ifP => [|_ ok]; last exact: set_data_inv.
by move/String.eqb_eq => e1; move/String.eqb_eq: e; rewrite e1.
Qed.

Lemma get_set_valE ds s f names : exists r, get_set_val ds s f (names f) =
  match named ds names f with
  | Some v => set_field s f v
  | None => (s, r)
  end.
Proof.
rewrite /get_set_val /named; case: (lookup ds f) => [x|].
- case: (names f) => [k|[|a|z|k]].
  + by case: (lookup ds k) => [y|]; [exists (Ok tt)|exists (Err KeyError)].
  + by exists (Err KeyError).
  + by exists (Err TypeError).
  + by exists (Err KeyError).
  + by case: (lookup ds k) => [y|]; [exists (Ok tt)|exists (Err KeyError)].
- by case: (names f) => [k|[|a|z|k]]; exists (Ok tt).
Qed.

Lemma load_loop_inv ds names fs s : load_ok ds names -> st_inv s -> st_inv (load_loop ds names fs s).1.
Proof.
move=> ok; elim: fs s => [//|f fs ih] s i /=.
have : st_inv (get_set_val ds s f (names f)).1.
  have [r ->] := get_set_valE ds s f names; case e: (named ds names f) => [v|] //.
  by apply: set_field_inv => //; apply: ok e.
by case: (get_set_val _ _ _ _) => s' [u|e] //= i'; apply: ih.
Qed.

Lemma srun1_inv sg o : op_ok o -> st_inv sg.1 -> st_inv (srun1 sg o).1.1.
Proof.
case: sg => s g; case: o => [a|a|a|a|a|a|x|a|a|x|a x k|ds names] /= ok i.
- exact: set_lam_inv.
- exact: set_lref_inv.
- exact: set_domain_inv.
- exact: set_data_inv.
- exact: set_meas_inv.
- exact: set_tv_inv.
- exact: set_dist_inv.
- by [].
- by [].
- by [].
- rewrite /measurements_from_reference.
  set s1 := (if a is Some b then with_tv s (NArr b) else s).
  have i1 : st_inv s1 by rewrite /s1; case: (a).
  set s2 := (if x is Some y then with_sd s1 (Some y) else s1).
  have i2 : st_inv s2 by rewrite /s2; case: (x).
  clearbody s2; case: (s_tv s2) => [[tv|]|] //; case: (s_sd s2) => [y|] //.
    case: (add_noise _ _ _ _ _ _) => g' [y'|e] //.
    by case e: (set_meas _ _) => [s' r'] /=; rewrite -[s']/((s', r').1) -e; apply: set_meas_inv.
  by case: (add_noise _ _ _ _ _ _).
- exact: load_loop_inv.
Qed.

Lemma srun_inv sg h : hist_ok h -> st_inv sg.1 -> st_inv (srun sg h).1.
Proof.
elim: h sg => [//|o h ih] sg /= [ok1 ok2] i; apply: ih => //.
exact: srun1_inv.
Qed.

(** After any history the parameter samples form a 2-D array and come with a domain of
    intervals. *)
Theorem C56_lam_has_domain g h lam : hist_ok h -> s_lam (srun (st0 R, g) h).1 = Some lam ->
  [/\ nd_wf lam, ndim lam = 2%N & exists d, s_dom (srun (st0 R, g) h).1 = Some d /\ dim d 1 = 2%N].
Proof.
move=> ok e; have [i1 i2 _] := @srun_inv (st0 R, g) h ok st0_inv.
have [/andP [wf /eqP n2] [d ed]] := i1 _ e; split=> //.
by exists d; split=> //; have [_ _] := dom_wfE (i2 _ ed).
Qed.

(** ** The domain setter on an object with samples *)
(** Interval j of [d] as compared with column j: with one interval, it is compared with every
    column; with one column, it is compared with every interval. *)
Definition covers d lam : Prop :=
  forall i j k, (i < dim lam 0)%N -> (j < dim lam 1)%N -> (k < dim d 0)%N ->
    [|| j == k, dim d 0 == 1%N | dim lam 1 == 1%N] -> ent d k 0 <= ent lam i j <= ent d k 1.

Lemma size_column a j : size (column a j) = dim a 0.
Proof. by rewrite size_map size_rows. Qed.
Lemma nth_column a i j : (i < dim a 0)%N -> nth 0 (column a j) i = ent a i j.
Proof. by move=> hi; rewrite (nth_map [::]) ?size_rows. Qed.

Lemma bcast_allP (f : R -> R -> bool) u v :
  if [|| size u == size v, size u == 1%N | size v == 1%N] then
    exists2 b, bcast_all f u v = Ok b &
    (b <-> forall i j, (i < size u)%N -> (j < size v)%N ->
       [|| i == j, size u == 1%N | size v == 1%N] -> f (nth 0 u i) (nth 0 v j))
  else bcast_all f u v = Err ValueError.
Proof.
rewrite /bcast_all; case e1: (size u == size v) => /=.
  eexists; first reflexivity; move/eqP: e1 => e1; split.
  - move/(all_nthP (0, 0)) => h i j hi hj; rewrite -e1 in hj *.
    have [->|ne] := eqVneq i j; last first.
      by rewrite orbb => /eqP u1; move: hi hj ne; rewrite u1; case: i => [|i] //; case: j.
    by move=> _; have := h j; rewrite size1_zip ?e1 // nth_zip // -?e1 => /(_ hj).
  - move=> h; apply/(all_nthP (0, 0)) => i; rewrite size1_zip ?e1 // => hi.
    by rewrite nth_zip //=; apply: h; rewrite ?e1 // eqxx.
case e2: (size u == 1%N) => /=.
  eexists; first reflexivity; move/eqP: e2 => e2; split.
  - move/(all_nthP 0) => h i j; rewrite e2 ltnS leqn0 => /eqP -> hj _.
    by rewrite nth0; apply: h.
  - by move=> h; apply/(all_nthP 0) => j hj; rewrite -nth0; apply: h; rewrite ?e2 ?eqxx ?orbT.
case e3: (size v == 1%N) => //=.
eexists; first reflexivity; move/eqP: e3 => e3; split.
- move/(all_nthP 0) => h i j hi; rewrite e3 ltnS leqn0 => /eqP -> _.
  by rewrite nth0; apply: h.
- by move=> h; apply/(all_nthP 0) => j hj; rewrite -nth0; apply: h; rewrite ?e3 ?eqxx ?orbT.
Qed.

(** Setting the domain of an object whose current domain matches its (at least one) samples:
    the argument must have an even number of entries and, as k intervals for p parameters,
    k = p or k = 1 or p = 1, and the intervals must cover the samples in the broadcast
    sense; otherwise ValueError, and the object is unchanged. *)
Theorem C56_domain_accepts_iff s a lam old : s_lam s = Some lam -> s_dom s = Some old ->
  dim old 0 = dim lam 1 -> (0 < dim lam 0)%N -> (2 %| size (data a))%N ->
  let d := Nd [:: (size (data a) %/ 2)%N; 2%N] (data a) in
  let k := dim d 0 in let p := dim lam 1 in
  ([|| k == p, k == 1%N | p == 1%N] /\ covers d lam /\ set_domain s a = (with_dom s d, Ok tt)) \/
  (~ ([|| k == p, k == 1%N | p == 1%N] /\ covers d lam) /\ set_domain s a = (s, Err ValueError)).
Proof.
move=> el eo eq l0 ev d k p; rewrite /set_domain reshape2 ev -/d el eo /= eq /guard eqxx /=.
case bl: (bounds_of lam) => [mm|e]; last first.
  by move: bl; rewrite /bounds_of eqn0Ngt l0.
have [wm dm] := bounds_wf bl; rewrite /=.
have cr j : (j < p)%N -> col_range lam j (ent mm j 0) (ent mm j 1) by move=> hj; apply: bounds_rows.
have := bcast_allP (fun x y => x <= y) (column d 0) (column mm 0).
have := bcast_allP (fun x y => y <= x) (column d 1) (column mm 1).
rewrite !size_column -/k dm -/p; case c: [|| k == p, k == 1%N | p == 1%N]; last first.
  by move=> -> -> /=; right; split=> // -[].
move=> [b2 -> h2] [b1 -> h1] /=.
have C : b1 && b2 <-> covers d lam.
  split.
  - case/andP=> /h1 q1 /h2 q2 i j l hi hj hl cc.
    have cc' : [|| l == j, k == 1%N | p == 1%N] by rewrite eq_sym.
    have := q1 l j hl hj cc'; have := q2 l j hl hj cc'.
    rewrite !nth_column ?dm // => r2 r1.
    have [_ _ /(_ _ (in_column j hi)) /andP [r3 r4]] := cr j hj.
    by rewrite (le_trans r1 r3) (le_trans r4 r2).
  - move=> cv; apply/andP; split; [apply/h1|apply/h2] => l j hl hj cc; rewrite !nth_column ?dm //.
    + have [/column_in [i hi ->] _ _] := cr j hj.
      by have /andP [] : ent d l 0 <= ent lam i j <= ent d l 1 by apply: cv => //; rewrite eq_sym.
    + have [_ /column_in [i hi ->] _] := cr j hj.
      by have /andP [] : ent d l 0 <= ent lam i j <= ent d l 1 by apply: cv => //; rewrite eq_sym.
case cb: (b1 && b2); rewrite /guard /=; [left|right]; split=> //.
- by split=> //; apply/C.
- by move=> -[_ /C]; rewrite cb.
Qed.

(** An odd number of entries is rejected, always. *)
Theorem C56_domain_odd s a : ~~ (2 %| size (data a))%N -> set_domain s a = (s, Err ValueError).
Proof. by move=> h; rewrite /set_domain reshape2 (negbTE h). Qed.

(** With one interval per parameter, covering is lying inside. *)
Lemma covers_inside d lam : dim d 0 = dim lam 1 -> covers d lam -> inside d lam.
Proof.
move=> e c; split=> // i j hi hj; apply: c => //; first by rewrite e.
by rewrite eqxx.
Qed.

(** Calls that set neither lam nor the domain. *)
Definition keeps_params o : bool :=
  match o with SLam _ | SDomain _ | SLoad _ _ => false | _ => true end.

Lemma keeps_params1 sg o : keeps_params o ->
  s_dom (srun1 sg o).1.1 = s_dom sg.1 /\ s_lam (srun1 sg o).1.1 = s_lam sg.1.
Proof.
case: sg => s g; case: o => [//|a|//|a|a|a|x|a|a|x|a x k|//] /= _ //.
- by rewrite /set_lref; case e: (s_dom s) => [d|] //; case: (lref_check _ _).
- case ed: (data_2d a) => [d|e]; last by rewrite /set_data ed.
  rewrite (set_dataE s ed); case: (s_sens s) => [se|]; case: (s_times s) => [ti|] //.
  + by case: (shape0 ti) => [?|?] //; case: (shape0 se) => [?|?] //; case: ifP.
  + by case: (shape0 se) => [?|?] //; case: ifP.
  + by case: (shape0 ti) => [?|?] //; case: ifP.
- by rewrite /set_meas; case: (meas_reshape _ _).
- by rewrite /set_tv; case: (meas_reshape _ _).
- by rewrite /set_dist; case: ifP.
- rewrite /measurements_from_reference.
  set s1 := (if a is Some b then with_tv s (NArr b) else s).
  have [i1 j1] : s_dom s1 = s_dom s /\ s_lam s1 = s_lam s by rewrite /s1; case: (a).
  set s2 := (if x is Some y then with_sd s1 (Some y) else s1).
  have [i2 j2] : s_dom s2 = s_dom s1 /\ s_lam s2 = s_lam s1 by rewrite /s2; case: (x).
  rewrite -i1 -j1 -i2 -j2; clearbody s2.
  case: (s_tv s2) => [[tv|]|] //; case: (s_sd s2) => [y|] //.
    case: (add_noise _ _ _ _ _ _) => g' [y'|e] //=.
    by rewrite /set_meas; case: (meas_reshape _ _).
  by case: (add_noise _ _ _ _ _ _).
Qed.

Lemma keeps_params_run sg h : all keeps_params h ->
  s_dom (srun sg h).1 = s_dom sg.1 /\ s_lam (srun sg h).1 = s_lam sg.1.
Proof.
elim: h sg => [//|o h ih] sg /= /andP [k1 k2].
by have [-> ->] := ih (srun1 sg o).1 k2; apply: keeps_params1.
Qed.

(** C56: setting the domain after the samples, one interval per parameter, or setting the
    samples on an object without domain, guarantees that all samples are inside the domain,
    and no later call other than setting lam, domain or load changes that. *)
Theorem C56_domain_after_samples g h1 a h2 lam d : hist_ok h1 -> all keeps_params h2 ->
  let sg1 := srun (st0 R, g) h1 in
  s_lam sg1.1 = Some lam -> (0 < dim lam 0)%N -> size (data a) = (2 * dim lam 1)%N ->
  (srun1 sg1 (SDomain a)).2 = Ok tt ->
  let s2 := (srun (st0 R, g) (h1 ++ SDomain a :: h2)).1 in
  s_dom s2 = Some d -> s_lam s2 = Some lam /\ inside d lam.
Proof.
move=> ok kp sg1 el l0 sz r2 s2.
have -> : s2 = (srun (srun1 sg1 (SDomain a)).1 h2).1 by rewrite /s2 /srun foldl_cat.
have [-> ->] := keeps_params_run (srun1 sg1 (SDomain a)).1 kp.
have [i1 i2 _] : st_inv sg1.1 by apply: srun_inv.
have [_ [old eo]] := i1 _ el.
move: r2; clearbody sg1; case: sg1 el i1 i2 eo => s g' /= el i1 i2 eo.
have [eq|neq] := eqVneq (dim old 0) (dim lam 1); last first.
  rewrite /set_domain reshape2; case: ifP => //= _.
  by rewrite el eo /= /guard (negbTE neq).
have ev : (2 %| size (data a))%N by rewrite sz dvdn_mulr.
case: (C56_domain_accepts_iff el eo eq l0 ev) => [[_ [cv ->]] _ /= [<-]|[_ ->]] //=.
split=> //; apply: covers_inside => //.
by rewrite /dim /= sz mulKn.
Qed.

Theorem C56_samples_without_domain g h1 a h2 : hist_ok h1 -> arr_ok 2 a -> all keeps_params h2 ->
  let sg1 := srun (st0 R, g) h1 in
  s_dom sg1.1 = None -> (0 < dim (col2 a) 0)%N ->
  let s2 := (srun (st0 R, g) (h1 ++ SLam a :: h2)).1 in
  exists d, [/\ s_dom s2 = Some d, s_lam s2 = Some (col2 a) & inside d (col2 a)].
Proof.
move=> ok oka kp sg1 ed l0 s2.
have -> : s2 = (srun (srun1 sg1 (SLam a)).1 h2).1 by rewrite /s2 /srun foldl_cat.
have [-> ->] := keeps_params_run (srun1 sg1 (SLam a)).1 kp.
have [i1 i2 _] : st_inv sg1.1 by apply: srun_inv.
have el : s_lam sg1.1 = None by case e: (s_lam sg1.1) => [l|] //; have [_ [d]] := i1 _ e; rewrite ed.
clearbody sg1; case: sg1 ed el {i1 i2} => s g' /= ed el.
have := C56_lam_without_domain oka ed el; rewrite l0 /=.
case=> d [s' [-> e1 e2 sh cr]]; exists d; split=> //; split; first by rewrite /dim sh.
by move=> i j hi hj; have [_ _ ->] := cr j hj isT; last exact: in_column.
Qed.
End StProps.
