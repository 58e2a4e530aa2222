(** What real_full of highschool_qe/cohenhorm.py prints. *)
From Coq Require Import ZArith String Ascii.
From mathcomp Require Import all_ssreflect all_algebra all_real_closed.
From Verif Require Import Py VtsInst MuchModel MuchSpec MuchSeq MuchDiag MuchStep MuchReal MuchInst MuchFull MuchEx
  MuchPrint CohenModel CohenSpec CohenExp CohenCopy CohenSem CohenExt CohenStep CohenBack CohenTable CohenReal CohenEx
  CohenEx2.

Set Implicit Arguments.
Unset Strict Implicit.
Unset Printing Implicit Defensive.
Import GRing.Theory Num.Theory Order.TTheory.
Local Open Scope ring_scope.
Local Notation "s +++ t" := (String.append s t) (right associativity, at level 60).

(** ** Model. *)
Fixpoint dashes (n : nat) : string := if n is n'.+1 then String "-" (dashes n') else EmptyString.

Section Model.
Variables (P : eqType) (K : realDomainType) (A : algebra P K).
Variables (ss_of : seq P -> seq P) (ss_plus : seq P -> P -> seq P) (setiter : seq P -> seq P).
Notation table := (diagram P [eqType of rat]).
(** [str] of polynomials, of numbers and of contexts; the order in which
    sortedset without a key lists polynomials, which is that of the comparison
    of sympy and not specified here. *)
Variables (str : P -> string) (istr : int -> string) (cstr : context P -> string) (row_order : seq P -> seq P).

(** cohenhorm.py 606-628: pprint_diagram. *)
Definition ch_pprint (D : table) : res string :=
  if size D == 0%N then Ok ("Empty table" +++ nl) else
  let! max_len := pylast (sortedset ltn [seq String.length (str q) | q <- rows D]) in
  let header := foldl (fun h q => foldl (ss_add <%R) h (cols D q)) [::] (rows D) in
  let! lines := foldM (fun out q =>
      let! line := foldM (fun line c =>
          if c \in cols D q then let! v := cell D q c in Ok (line +++ " " +++ pad 2 (istr v))
          else Ok (line +++ " " +++ " *")) (pad max_len (str q) +++ "   ") header in
      Ok (out +++ line +++ " " +++ nl)) (dashes max_len +++ nl) (row_order (rows D)) in
  Ok (lines +++ nl).

(** cohenhorm.py 55-61: one pass of the last loop. *)
Definition print_suitable (acc : seq (seq P * seq P * seq P) * string) (x : table * context P) :
    res (seq (seq P * seq P * seq P) * string) :=
  let! t := ch_pprint x.1 in
  Ok (rcons acc.1 (clause_of_context x.2), acc.2 +++ "context: " +++ cstr x.2 +++ nl +++ t).

(** cohenhorm.py 13-63: real_full, with what it prints (29, 51, 56, 57). *)
Definition ch_real_full_out (n : nat) (lesser equalities greater : seq P) :
    res (seq (seq P * seq P * seq P) * string) :=
  let! tables := real_table A ss_of ss_plus setiter n (lesser ++ equalities ++ greater) [::] in
  let! good := filterM (good_table setiter lesser equalities greater) tables in
  foldM print_suitable ([::], nl +++ nl +++ nl +++ "SUITABLE TABLES:" +++ nl +++ nl) good.
End Model.

(** ** Specification. *)
Section Spec.
Variables (P : eqType) (str : P -> string) (istr : int -> string) (cstr : context P -> string).
Notation table := (diagram P [eqType of rat]).

(** The lines for one table: the context, a line of dashes as long as the
    longest name, one line for each row, an empty one. *)
Definition ch_block (x : table * context P) (lines : seq string) : Prop :=
  exists width header order,
  [/\ perm_eq order (rows x.1),
      sorted <%R header /\ (forall c, c \in header <-> exists2 q, q \in rows x.1 & c \in cols x.1 q),
      (forall q, q \in rows x.1 -> (String.length (str q) <= width)%N) /\
      (exists2 q, q \in rows x.1 & String.length (str q) = width) &
      lines = ("context: " +++ cstr x.2) :: dashes width ::
              rcons [seq table_line str istr x.1 width header q | q <- order] ""%string].

Definition ch_heading : seq string := [:: ""; ""; ""; "SUITABLE TABLES:"; ""]%string.
End Spec.

(** A column where the conditions hold. *)
Definition solution_column (P : eqType) (lesser equalities greater : seq P) (T : diagram P [eqType of rat]) (c : rat) : Prop :=
  [/\ forall p, p \in lesser -> cell T p c = Ok (-1), forall p, p \in equalities -> cell T p c = Ok 0 &
      forall p, p \in greater -> cell T p c = Ok 1].

(** ** Proofs. *)
Local Arguments String.append : simpl never.
Section Print.
Variables (P : eqType) (str : P -> string) (istr : int -> string) (cstr : context P -> string).
Variable row_order : seq P -> seq P.
Hypothesis ro : set_order row_order.
Notation table := (diagram P [eqType of rat]).

Lemma rat_total (x y : rat) : x != y -> ~~ (x < y) -> y < x.
Proof. by move=> ne; rewrite -leNgt le_eqVlt eq_sym (negbTE ne). Qed.

Lemma ch_pprint_block (x : table * context P) : rows x.1 <> [::] -> exists s lines,
  [/\ ch_pprint str istr row_order x.1 = Ok s, ch_block str istr cstr x lines &
      "context: " +++ cstr x.2 +++ nl +++ s = unlines lines].
Proof.
case: x => T c /= n0; rewrite /ch_pprint.
have -> : (size T == 0%N) = false by case: T n0.
have [|m [-> hm lem]] := @max_last [seq String.length (str q) | q <- rows T]; first by case: (rows T) n0.
rewrite bind_ok; set hd := foldl _ _ _; rewrite lines_loop bind_ok.
eexists _, _; split; first by [].
  exists m, hd, (row_order (rows T)); split; last by [].
  - exact: ro.
  - have [//|h1 h2] := @header_loop _ _ _ T rat_total [::] (rows T); split=> // c'.
    by rewrite h2; split=> [[]//|]; right.
  - split=> [q hq|]; first by apply: lem; exact: map_f.
    by have /mapP[q hq ->] := hm; exists q.
by rewrite /= -cats1 unlines_cat /= app0l app0 -!appA.
Qed.

Lemma print_loop (good : seq (table * context P)) ret out : (forall x, List.In x good -> rows x.1 <> [::]) ->
  exists bs : seq ((table * context P) * seq string),
  [/\ map fst bs = good, forall b, List.In b bs -> ch_block str istr cstr b.1 b.2 &
   foldM (print_suitable str istr cstr row_order)
    (ret, out) good = Ok (ret ++ [seq clause_of_context x.2 | x <- good], out +++ unlines (flatten (map snd bs)))].
Proof.
elim: good ret out => [|x good IH] ret out ne.
  by exists [::]; rewrite /= cats0 app0.
have [|s [lines [E1 b1 E2]]] := @ch_pprint_block x; first by apply: ne; left.
have [y hy|bs [h1 h2 h3]] := IH (rcons ret (clause_of_context x.2)) (out +++ "context: " +++ cstr x.2 +++ nl +++ s).
  by apply: ne; right.
exists ((x, lines) :: bs); split=> [|b [<-//|]|]; [by rewrite /= h1|exact: h2|].
by rewrite [foldM _ _ _]/= {1}/print_suitable E1 !bind_ok h3 /= cat_rcons E2 unlines_cat -!appA.
Qed.
End Print.

(** Printing changes nothing else. *)
Section Agree.
Variables (P : eqType) (K : realDomainType) (A : algebra P K).
Variables (ss_of : seq P -> seq P) (ss_plus : seq P -> P -> seq P) (setiter : seq P -> seq P).
Hypothesis order : set_order setiter.
Variables (str : P -> string) (istr : int -> string) (cstr : context P -> string) (row_order : seq P -> seq P).
Hypothesis ro : set_order row_order.
Notation table := (diagram P [eqType of rat]).

Lemma good_rows l e g (x : table * context P) b : good_table setiter l e g x = Ok b -> rows x.1 <> [::].
Proof.
case: x => T c /= + r0; rewrite r0; have := perm_size (order [::]); by case: (setiter [::]).
Qed.

Lemma filterM_In (T : Type) (f : T -> res bool) l l' : filterM f l = Ok l' ->
  forall x, List.In x l' -> exists b, f x = Ok b.
Proof.
elim: l l' => [|y l IH] l' /=; first by case=> <-.
case E: (f y) => [b|] //=; case F: (filterM f l) => [m|] //= [<-] x; case: b E => E.
  by case=> [<-|/(IH _ F)//]; exists true.
exact: IH F x.
Qed.

Theorem out_agrees n l e g :
  (let! x := ch_real_full_out A ss_of ss_plus setiter str istr cstr row_order n l e g in Ok x.1) =
  ch_real_full A ss_of ss_plus setiter n l e g.
Proof.
rewrite /ch_real_full_out /ch_real_full; case: (real_table _ _ _ _ _ _ _) => //= tables.
case E: (filterM _ _) => [good|] //=.
have ne x : List.In x good -> rows x.1 <> [::] by move/(filterM_In E)=> [b]; exact: good_rows.
by have [bs [_ _ ->]] := print_loop str istr cstr ro [::] (nl +++ nl +++ nl +++ "SUITABLE TABLES:" +++ nl +++ nl) ne.
Qed.
End Agree.

Section Suitable.
Variables (P : eqType) (K : realDomainType) (A : algebra P K).
Variables (C : idomainType) (den : P -> {poly C}).
Hypothesis ok : algebra_contract A den.
Hypothesis scal : scalars_exact A den.
Hypothesis ch : [char C] =i pred0.
Variables (ss_of : seq P -> seq P) (ss_plus : seq P -> P -> seq P).
Hypothesis ss : degree_sets A ss_of ss_plus.
Variable setiter : seq P -> seq P.
Hypothesis order : set_order setiter.
Variables (str : P -> string) (istr : int -> string) (cstr : context P -> string).
Variable row_order : seq P -> seq P.
Hypothesis ro : set_order row_order.
Variables lesser equalities greater : seq P.
Let ps := lesser ++ equalities ++ greater.
Hypothesis acc : accepted A den [::] ps.
Notation table := (diagram P [eqType of rat]).

Theorem suitable_printed : exists N (bs : seq ((table * context P) * seq string)), [/\
  forall n, (N <= n)%N ->
    ch_real_full_out A ss_of ss_plus setiter str istr cstr row_order n lesser equalities greater =
    Ok ([seq clause_of_context b.1.2 | b <- bs], unlines (ch_heading ++ flatten (map snd bs))),
  forall b, List.In b bs -> [/\ ch_block str istr cstr b.1 b.2, rows b.1.1 =i ps,
    {in ps &, forall q q', cols b.1.1 q =i cols b.1.1 q'} & exists c, solution_column lesser equalities greater b.1.1 c] &
  forall (R : rcfType) (ev : {rmorphism C -> R}), sign_ok A den ev ->
    ((exists x, real_sat den ev lesser equalities greater x) <->
     count (fun b => consistent den ev b.1.2) bs = 1%N) /\
    (count (fun b => consistent den ev b.1.2) bs <= 1)%N /\
    forall b, List.In b bs -> consistent den ev b.1.2 -> condensed den ev ps b.1.1].
Proof.
have p0 : ps <> [::] := acc_nil acc.
have [||||||N [ret [h1 [h2 h3]]]] := @real_table_ok _ _ A _ den ok scal ch _ _ ss _ order (generated A den ps)
    _ _ _ [::] ps acc => //.
- exact: gen_tail.
- exact: gen_der.
- by move=> p q gp gq q0 le; apply: gen_rem => //; rewrite (den_eq0 ok).
- by move=> p; exact: gen_input.
have {}h3 v : count (fun x => cs v x.2) ret = 1%N := h3 v.
pose w x := if good_table setiter lesser equalities greater x is Ok b then b else false.
have fE : filterM (good_table setiter lesser equalities greater) ret = Ok [seq x <- ret | w x].
  by apply: filterME => x /h2 gx; rewrite /w; have [b [-> _]] := good_tableE order p0 gx.
have gE x : List.In x [seq x <- ret | w x] -> List.In x ret /\ w x by move/filter_In.
have ne x : List.In x [seq x <- ret | w x] -> rows x.1 <> [::].
  move=> /gE[/h2 gx _]; have [_ [_ _ rE _]] := g_tab gx; case: (ps) p0 rE => // q l _ /(_ q).
  by rewrite mem_head => + E; rewrite E.
have [bs [b1 b2 b3]] := print_loop str istr cstr ro [::] (nl +++ nl +++ nl +++ "SUITABLE TABLES:" +++ nl +++ nl) ne.
exists N, bs; split.
- move=> n hn; rewrite /ch_real_full_out -/ps h1 // bind_ok fE bind_ok b3 unlines_cat -b1 -map_comp.
  by [].
- move=> b hb; have hx : List.In b.1 [seq x <- ret | w x].
    by rewrite -b1; apply: List.in_map hb.
  have [hr wx] := gE _ hx; have gx := h2 _ hr; have [prs [sh _ rE _]] := g_tab gx.
  split=> //; first exact: b2.
    by move=> q q' hq hq' c; rewrite !(sh_cols sh) ?rE.
  have [b' [Eb hb']] := good_tableE order p0 gx; move: wx; rewrite /w Eb (hb' prs sh rE) => /hasP[c hc].
  have cE p : p \in ps -> cell b.1.1 p c = Ok (vd b.1.1 p c).
    by move=> hp; apply: cell_vd; rewrite (sh_cols sh) ?rE.
  move=> /and3P[/allP e /allP l /allP g]; exists c; split=> p hp; rewrite cE ?mem_cat ?hp ?orbT //; congr Ok; apply/eqP.
  + exact: l.
  + exact: e.
  + exact: g.
move=> R ev sgn; pose v := Point sgn.
have cE : count (fun b => consistent den ev b.1.2) bs = count (fun x => cs v x.2) [seq x <- ret | w x].
  by rewrite -b1 count_map.
have le1 : (count (fun b => consistent den ev b.1.2) bs <= 1)%N.
  by rewrite cE count_filter -(h3 v); apply: sub_count => x /andP[].
split; last split=> // b hb cb.
  rewrite cE; split=> [sx|h].
    have [x hx cx] : exists2 x, List.In x ret & cs v x.2.
      by apply: (@count_In _ (fun x => cs v x.2)); rewrite h3.
    have gx := h2 _ hx; apply/eqP; rewrite eqn_leq -{1}cE le1 /=.
    have wx : w x by rewrite /w; have [b [Eb _]] := good_tableE order p0 gx; rewrite Eb; apply/(good_sat order p0 gx cx Eb).
    have : List.In x [seq x <- ret | w x] by apply/filter_In.
    by elim: [seq x <- ret | w x] => //= y l IH [->|/IH h]; rewrite ?cx // (leq_trans h) // leq_addl.
  have [x hx cx] : exists2 x, List.In x [seq x <- ret | w x] & cs v x.2.
    by apply: (@count_In _ (fun x => cs v x.2)); rewrite h.
  have [hr wx] := gE _ hx; have gx := h2 _ hr; have [b [Eb _]] := good_tableE order p0 gx.
  by move: wx; rewrite /w Eb => wx; apply/(good_sat order p0 gx cx Eb).
have hx : List.In b.1 [seq x <- ret | w x] by rewrite -b1; apply: List.in_map hb.
have [hr _] := gE _ hx; have [prs [sh pt rE tk]] := g_tab (h2 _ hr); have [xs tx] := tk v cb.
exact: points_condensed sh pt tx rE.
Qed.
End Suitable.

(** ** A run: x^2 + y = 0, x > 0. *)
Local Open Scope Z_scope.
Definition ch_name (p : Pxy) : string :=
  (match rd p with
   | [:: [:: 0; 1]] => "y" | [:: [:: 0; 4]] => "4*y" | [:: [::]; [:: 1]] => "x"
   | [:: [:: 0; 1]; [::]; [:: 1]] => "x**2 + y" | _ => "?"
   end)%string.
Local Close Scope Z_scope.
Definition ch_cstr (c : context Pxy) : string :=
  "{" +++ String.concat ", " [seq ch_name x.1 +++ ": " +++ show_sign x.2 | x <- c] +++ "}".
Definition ch_run := ch_real_full_out algxy deg_set deg_plus id ch_name show_sign ch_cstr id 20 [::] [:: px_x2y] [:: px_x].
Lemma ch_printed : (if ch_run is Ok x then Some x.2 else None) = Some (unlines
  [:: ""; ""; ""; "SUITABLE TABLES:"; "";
      "context: {4*y: -1, y: -1}"; "--------";
      "x**2 + y     1  1  0 -1 -1 -1  0  1  1 ";
      "       x    -1 -1 -1 -1  0  1  1  1  1 "; "";
      "context: {4*y: -1, y: 0}"; "--------";
      "x**2 + y     1  1  0 -1 -1 -1  0  1  1 ";
      "       x    -1 -1 -1 -1  0  1  1  1  1 "; "";
      "context: {4*y: -1, y: 1}"; "--------";
      "x**2 + y     1  1  0 -1 -1 -1  0  1  1 ";
      "       x    -1 -1 -1 -1  0  1  1  1  1 "; ""])%string.
Proof. by vm_compute. Qed.

(** The second context holds nowhere. *)
Local Open Scope Z_scope.
Definition px_4y : Pxy := px [:: [:: 0; 4]].
Local Close Scope Z_scope.
Lemma cvalue_4y (R : rcfType) (y : R) : cvalue idx (evy y) px_4y = 4%:R * y.
Proof.
have : map_poly (evy y) (idx px_4y) = _ := E_px y _; move=> /(congr1 (fun p : {poly R} => p`_0)).
by rewrite coef_map /cvalue /= => ->; rewrite coef_cons /= mul0r !add0r addr0.
Qed.

Definition impossible : seq Pxy * seq Pxy * seq Pxy := ([:: px_4y], [:: px_y], [::]).
Lemma impossible_never (R : rcfType) (y : R) : ~ real_clause_holds idx (evy y) impossible.
Proof.
move=> [h1 h2 _]; have := h1 px_4y (mem_head _ _); have := h2 px_y (mem_head _ _).
by rewrite cvalue_y cvalue_4y => ->; rewrite mulr0 ltxx.
Qed.

Lemma impossible_printed : exists lesser equalities greater clauses text,
  [/\ accepted algxy idx [::] (lesser ++ equalities ++ greater),
      ch_real_full_out algxy deg_set deg_plus id ch_name show_sign ch_cstr id 20 lesser equalities greater =
        Ok (clauses, text) &
      exists2 c, c \in clauses & forall (R : rcfType) (y : R), ~ real_clause_holds idx (evy y) c].
Proof.
have h : (if ch_run is Ok x then impossible \in x.1 else false) by vm_compute.
exists [::], [:: px_x2y], [:: px_x]; move: h; rewrite /ch_run.
case: (ch_real_full_out _ _ _ _ _ _ _ _ _ _ _ _) => [[cl t]|//] h; exists cl, t; split=> //.
  exact: x2y_accepted.
by exists impossible => // R y; exact: impossible_never.
Qed.
