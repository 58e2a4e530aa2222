(** Proofs about the model of vts/checker.py. *)
From Coq Require Import String.
From mathcomp Require Import all_ssreflect all_algebra.
From mathcomp.zify Require Import zify.
From Verif Require Import Py VtsModel VtsSpec IsymModel IsymSpec IsymFacts CheckerModel CheckerSpec.

Set Implicit Arguments.
Unset Strict Implicit.
Unset Printing Implicit Defensive.
Import GRing.Theory Num.Theory Order.POrderTheory Order.TotalTheory.
Local Open Scope ring_scope.

Section Truth.
Variables (R : realDomainType) (E Pt : Type) (val : E -> Pt -> R).
Variables (opp : E -> E) (mk : cls -> E -> E -> formula E).
Variable set_of : seq (formula E) -> seq (formula E).
Hypothesis oppP : opp_contract val opp.
Hypothesis mkP : mk_contract val mk.
Hypothesis setP : set_contract set_of.

Notation holds := (holds val).
Notation all_hold := (all_hold val).

Lemma rel_dec c (a b : R) : rel_holds c a b \/ ~ rel_holds c a b.
Proof.
case: c => /=.
- by case: (a <= b); [left|right].
- by case: (a < b); [left|right].
- by case: (a =P b); [left|right].
- by case: (a =P b); [right|left].
- by case: (b <= a); [left|right].
- by case: (b < a); [left|right].
Qed.

Lemma holds_dec x f : holds x f \/ ~ holds x f.
Proof. by case: f => [c a b|[]]; [exact: rel_dec|left|right]. Qed.

Lemma mk_holds c a b x : holds x (mk c a b) <-> rel_holds c (val a x) (val b x).
Proof. by case: (mkP c a b) => [->|[t [-> h]]] //=. Qed.

Lemma rel_negation c (a b : R) : rel_holds (negation_class c) a b <-> ~ rel_holds c a b.
Proof.
case: c => /=.
- by rewrite ltNge; split=> /negP.
- by rewrite leNgt; split=> /negP.
- by [].
- by split=> [->|h]; [|case: (a =P b)] => //; auto.
- by rewrite ltNge; split=> /negP.
- by rewrite leNgt; split=> /negP.
Qed.

(** ** negate_relations *)
Lemma negateR c a b fs : negate_relations mk (Rel c a b :: fs) =
  let! r := negate_relations mk fs in Ok (mk (negation_class c) a b :: r).
Proof. by []. Qed.

Lemma negate_ok fs gs : negate_relations mk fs = Ok gs ->
  List.Forall2 (fun f g => forall x, holds x g <-> ~ holds x f) fs gs.
Proof.
elim: fs gs => [|[c a b|t] fs IH] gs //=; first by case=> <-.
rewrite negateR; case e: (negate_relations mk fs) => [gs'|] //= [<-].
by constructor; [move=> x; rewrite mk_holds rel_negation|exact: IH].
Qed.

Lemma negate_err fs :
  (exists gs, negate_relations mk fs = Ok gs) \/
  negate_relations mk fs = Err KeyError /\ exists t, List.In (Bool t) fs.
Proof.
elim: fs => [|[c a b|t] fs IH]; first by left; exists [::].
  rewrite negateR; case: IH => [[gs e]|[e [t ti]]]; rewrite e bind_ok || rewrite e.
    by left; eexists.
  by right; split=> //; exists t; right.
by right; split=> //; exists t; left.
Qed.

Lemma negate_bool fs t : List.In (Bool t) fs -> negate_relations mk fs = Err KeyError.
Proof.
elim: fs => [|f fs IH] // [->|/IH] // e.
by case: f => // c a b; rewrite negateR e.
Qed.

(** ** rewrite_to_less *)
Lemma rewrite_less fs :
  List.Forall2 (fun f g => is_less g /\ forall x, holds x g <-> holds x f)
    fs (rewrite_to_less opp mk fs).
Proof.
have less c a b : is_less (Rel c a b) -> is_less (mk c a b).
  by case: (mkP c a b) => [->|[t [-> _]]].
elim: fs => [|f fs IH]; first exact: List.Forall2_nil.
constructor; last exact: IH.
case: f => [[] a b|t]; (split; [by [] || exact: less|]) => x //.
  by rewrite mk_holds /= !oppP ler_opp2.
by rewrite mk_holds /= !oppP ltr_opp2.
Qed.

(** ** vts_preformat *)
Lemma Forall2_In1 (A B : Type) (P : A -> B -> Prop) l m a :
  List.Forall2 P l m -> List.In a l -> exists2 b, List.In b m & P a b.
Proof.
elim=> {l m} // a' b' l m h _ IH /= [<-|/IH[b bi hb]]; first by exists b' => //; left.
by exists b => //; right.
Qed.

Lemma Forall2_In2 (A B : Type) (P : A -> B -> Prop) l m b :
  List.Forall2 P l m -> List.In b m -> exists2 a, List.In a l & P a b.
Proof.
elim=> {l m} // a' b' l m h _ IH /= [<-|/IH[a ai ha]]; first by exists a' => //; left.
by exists a => //; right.
Qed.

Lemma In_filter (T : Type) (p : pred T) l a : List.In a (filter p l) <-> List.In a l /\ p a.
Proof.
elim: l => [|b l IH] /=; first by split=> // -[].
case pb: (p b) => /=; rewrite IH; split.
- by case=> [<-|[]]; auto.
- by case=> -[]; auto.
- by case; auto.
- by move=> [[e|i] pa]; [move: pa; rewrite -e pb|].
Qed.

Lemma In_rcons (T : Type) (l : seq T) a b : List.In a (rcons l b) <-> List.In a l \/ a = b.
Proof.
elim: l => [|c l IH] /=; first by split=> [[->|]|[|->]]; auto.
by rewrite IH; tauto.
Qed.

Lemma In_map (A B : Type) (f : A -> B) l b : List.In b (map f l) <-> exists2 a, List.In a l & b = f a.
Proof.
elim: l => [|c l IH] /=; first by split=> // -[].
rewrite IH; split=> [[<-|[a ai ->]]|[a [->|ai] ->]]; [by exists c; auto|by exists a; auto|by left|].
by right; exists a.
Qed.

Lemma filtered_hold x l : all_hold x (set_of (filter (@not_true E) l)) <-> all_hold x l.
Proof.
split=> h f fi; last by apply: h; move: fi; rewrite setP In_filter => -[].
case nt: (not_true f); first by apply: h; rewrite setP In_filter.
by case: f nt {fi} => [c a b|[]].
Qed.

Lemma rewrite_hold x l : all_hold x (rewrite_to_less opp mk l) <-> all_hold x l.
Proof.
have F := rewrite_less l; split=> h f fi.
  by have [g gi [_ e]] := Forall2_In1 F fi; apply/e/h.
by have [g gi [_ e]] := Forall2_In2 F fi; apply/e/h.
Qed.

Lemma preformat_ok ante succ conjs : vts_preformat opp mk set_of ante succ = Ok conjs ->
  (forall x, (all_hold x ante -> all_hold x succ) <->
             (forall conj, List.In conj conjs -> ~ all_hold x conj)) /\
  (forall conj f, List.In conj conjs -> List.In f conj -> is_less f).
Proof.
rewrite /vts_preformat; case: ifP => // _.
set fa := set_of (filter _ ante); set fs := set_of (filter _ succ).
case e: negate_relations => [ns|] //= [<-].
have N := negate_ok e; have Fa := rewrite_less fa; have Fs := rewrite_less ns.
split=> [x|conj f]; last first.
  rewrite In_map => -[g gi ->]; rewrite In_rcons => -[fi|->].
    by have [? _ []] := Forall2_In2 Fa fi.
  by have [? _ []] := Forall2_In2 Fs gi.
rewrite -(filtered_hold x ante) -(filtered_hold x succ) -/fa -/fs.
split=> [h conj|h ha f fi].
  rewrite In_map => -[g gi ->] hc.
  have ha : all_hold x fa.
    by apply/rewrite_hold => f fi; apply: hc; rewrite In_rcons; left.
  have hg : holds x g by apply: hc; rewrite In_rcons; right.
  have [n ni [_ e1]] := Forall2_In2 Fs gi; have [s si e2] := Forall2_In2 N ni.
  by move/e1/e2: hg; apply; exact: h.
case: (holds_dec x f) => // nf.
have [n ni e2] := Forall2_In1 N fi; have [g gi [_ e1]] := Forall2_In1 Fs ni.
case: (h (rcons (rewrite_to_less opp mk fa) g)); first by rewrite In_map; exists g.
by move=> k; rewrite In_rcons => -[ki|->]; [move/rewrite_hold: ha; apply|apply/e1/e2].
Qed.

Lemma filtered_empty l : size (set_of (filter (@not_true E) l)) = 0%N <-> only_true l.
Proof.
split=> [/size0nil e f fi|h].
  case nt: (not_true f); last by case: f nt {fi} => [c a b|[]].
  suff: List.In f (set_of (filter (@not_true E) l)) by rewrite e.
  by rewrite setP In_filter.
case e: (set_of _) => [|f s] //.
have : List.In f (set_of (filter (@not_true E) l)) by rewrite e; left.
by rewrite setP In_filter => -[/h->].
Qed.

Lemma preformat_err ante succ :
  (exists conjs, vts_preformat opp mk set_of ante succ = Ok conjs) /\
    ~ only_true ante /\ ~ only_true succ /\ ~ List.In (Bool false) succ
  \/ vts_preformat opp mk set_of ante succ = Err (Exc "antecedent or succedent became zero") /\
    (only_true ante \/ only_true succ)
  \/ vts_preformat opp mk set_of ante succ = Err KeyError /\
    ~ only_true ante /\ List.In (Bool false) succ.
Proof.
rewrite /vts_preformat; case: ifP => [/orP h|/norP[/eqP n1 /eqP n2]].
  by right; left; split=> //; case: h => /eqP/filtered_empty; auto.
have {}n1 : ~ only_true ante by move/filtered_empty.
have {}n2 : ~ only_true succ by move/filtered_empty.
case: (negate_err (set_of [seq f <- succ | not_true f])) => [[gs e]|[e [t]]]; rewrite e /=.
  left; split; first by eexists.
  split=> //; split=> // bf.
  by rewrite (@negate_bool _ false) ?setP ?In_filter in e.
rewrite setP In_filter; case: t => -[ti] // _.
by right; right.
Qed.

(** ** make_relation_map *)
Lemma relation_map_ok (l : seq (formula E)) : all (@accepted E) l ->
  make_relation_map l = Ok (RMap (lhs_of CLe l) (lhs_of CLt l) (lhs_of CEq l) (lhs_of CNe l)).
Proof.
rewrite /make_relation_map.
suff h m : all (@accepted E) l -> foldM (fun m r =>
    match r with
    | Rel CLe a _ => Ok (RMap (rcons (r_le m) a) (r_lt m) (r_eq m) (r_ne m))
    | Rel CLt a _ => Ok (RMap (r_le m) (rcons (r_lt m) a) (r_eq m) (r_ne m))
    | Rel CEq a _ => Ok (RMap (r_le m) (r_lt m) (rcons (r_eq m) a) (r_ne m))
    | Rel CNe a _ => Ok (RMap (r_le m) (r_lt m) (r_eq m) (rcons (r_ne m) a))
    | _ => Err (Exc "relation wasn't added")
    end) m l = Ok (RMap (r_le m ++ lhs_of CLe l) (r_lt m ++ lhs_of CLt l)
                        (r_eq m ++ lhs_of CEq l) (r_ne m ++ lhs_of CNe l)) by move/h->.
elim: l m => [|f l IH] m; first by rewrite /= !cats0; case: m.
by case: f => [[] a b|t] //= al; rewrite IH //= cat_rcons.
Qed.

Lemma relation_map_err (l : seq (formula E)) : ~~ all (@accepted E) l ->
  make_relation_map l = Err (Exc "relation wasn't added").
Proof.
rewrite /make_relation_map; elim: l (RMap _ _ _ _) => [|f l IH] m //=.
by case: f => [[] a b|t] //= /IH->.
Qed.
End Truth.

(** ** The univariate pipeline *)
Section Pipeline.
Variable R : rcfType.
Variables (H : eqType) (str : int -> H).
Variable MkRoots : seq int -> res (seq R).
Variable mx_inv : rmatrix -> rmatrix.
Hypothesis str_inj : injective str.
Hypothesis inv_ok : inv_contract mx_inv.
Hypothesis roots_ok : MkRoots_contract (intr : int -> R) MkRoots.
Variable set_of : seq (formula upoly) -> seq (formula upoly).
Hypothesis setP : set_contract set_of.

Let val (P : upoly) (x : R) : R := rvalue P x.

Lemma upoly_opp : opp_contract val opp_upoly.
Proof. by move=> a x; rewrite /val /rvalue /opp_upoly raddfN /= hornerN. Qed.

Lemma rvalueC (P : upoly) (x : R) : (size P <= 1)%N -> rvalue P x = ratr P`_0.
Proof. by move=> /size1_polyC e; rewrite {1}e /rvalue map_polyC /= hornerC. Qed.

Lemma num_relP c (a b : rat) : num_rel c a b = true <-> rel_holds c (ratr a : R) (ratr b).
Proof.
case: c => /=; rewrite ?ler_rat ?ltr_rat //.
- split=> [/eqP->|/eqP] //; rewrite fmorph_eq => /eqP->; exact: eqxx.
- split=> [/eqP h /eqP|h]; [by rewrite fmorph_eq => /eqP|by apply/eqP=> e; apply: h; rewrite e].
Qed.

Lemma upoly_mk : mk_contract val mk_upoly.
Proof.
move=> c a b; rewrite /mk_upoly; case: ifP => [/andP[sa sb]|]; last by left.
right; exists (num_rel c a`_0 b`_0); split=> // x.
by rewrite num_relP /val !rvalueC.
Qed.

Lemma to_sym_represents P : represents (to_sym P) P.
Proof.
rewrite /to_sym; case: leqP => [/size1_polyC e|s].
  by apply: Or32; exists P`_0.
apply: Or33; rewrite /ordered_terms; case: eqP => // e.
by move: s; rewrite e size_poly0.
Qed.

Notation decide := (decide_vts intr str MkRoots mx_inv).
Notation all_hold := (all_hold val).

Definition ready (f : formula upoly) : Prop :=
  accepted f /\ univariate f.

Lemma lhs_ofP c (conj : seq (formula upoly)) (P : upoly) : (forall f, List.In f conj -> ready f) ->
  P \in lhs_of c conj -> List.In (Rel c P 0) conj /\ (1 < size P)%N.
Proof.
elim: conj => [|f conj IH] // h.
have hf : ready f by apply: h; left.
have {}IH : P \in lhs_of c conj -> List.In (Rel c P 0) conj /\ (1 < size P)%N.
  by apply: IH => g gi; apply: h; right.
case: f hf {h} => [k a b|t] [] // _ [sa b0]; rewrite {}b0.
case: k; case: c IH => IH; rewrite /lhs_of /= -/(lhs_of _ conj) ?inE;
  do ?[by case/IH; split; [right|]];
  by case/orP=> [/eqP->|/IH[]]; [split=> //; left|split=> //; right].
Qed.

Lemma lhs_ofI c (conj : seq (formula upoly)) (P Q : upoly) : accepted (Rel c P Q) -> List.In (Rel c P Q) conj -> P \in lhs_of c conj.
Proof.
elim: conj => [|f conj IH] // ac /= [->|/(IH ac) h].
  by case: c ac {IH} => // _; rewrite /lhs_of /= inE eqxx.
by case: f => [k a b|t]; case: c h {ac IH} => h; rewrite /lhs_of /= -/(lhs_of _ conj) //;
   case: k; rewrite /= ?inE ?h ?orbT.
Qed.

Lemma conj_satisfies (conj : seq (formula upoly)) x : (forall f, List.In f conj -> ready f) ->
  rsatisfies (lhs_of CLe conj) (lhs_of CLt conj) (lhs_of CEq conj) (lhs_of CNe conj) x <->
  all_hold x conj.
Proof.
move=> rd; have v0 : rvalue 0 x = 0 by rewrite /rvalue map_poly0 horner0.
split=> [[h1 h2 h3 h4] f fi|h].
  have [] := rd f fi; case: f fi => [c P Q|t] // fi ac [sP Q0].
  have := lhs_ofI ac fi; rewrite /= Q0 /val v0.
  by case: c ac {fi} => // _ i /=; auto.
split=> P /(lhs_ofP rd)[/h]; by rewrite /= /val v0.
Qed.

Lemma ready_represents c (conj : seq (formula upoly)) :
  List.Forall2 represents [seq to_sym p | p <- lhs_of c conj] (lhs_of c conj).
Proof. by elim: (lhs_of c conj) => [|P l IH] /=; constructor => //; exact: to_sym_represents. Qed.

Lemma decide_conj (conj : seq (formula upoly)) : (forall f, List.In f conj -> ready f) ->
  let run := (let! m := make_relation_map conj in
              decide (r_le m) (r_lt m) (r_eq m) (r_ne m)) in
  exists b, (b = true <-> exists x, all_hold x conj) /\
  (run = Ok b \/ run = Err (Exc "more than 5 polies") /\
     exists c P, List.In (Rel c P 0) conj /\ (6 < size P)%N).
Proof.
move=> rd; rewrite relation_map_ok; last first.
  elim: conj rd => [|f l IH] //= rd; rewrite IH; last by move=> g gi; apply: rd; right.
  by rewrite andbT; case: (rd f (or_introl erefl)).
rewrite bind_ok /decide_vts /=.
have [|b [hb hr]] := isym_vts_result str_inj inv_ok roots_ok
  (ready_represents CLe conj) (ready_represents CLt conj)
  (ready_represents CEq conj) (ready_represents CNe conj).
  apply/allP => P; rewrite !mem_cat => /or4P[] /(lhs_ofP rd)[_ s];
  by rewrite -size_poly_gt0; lia.
exists b; split.
  by split=> [/hb|h]; [|apply/hb; move: h]; case=> x /(conj_satisfies x rd) hx; exists x.
case: hr => [|[-> [P Pi s]]]; [by left|right; split=> //].
move: Pi; rewrite !mem_cat => /or4P[] /(lhs_ofP rd)[i _];
[by exists CLe, P|by exists CLt, P|by exists CEq, P|by exists CNe, P].
Qed.

Lemma check_conjs (conjs : seq (seq (formula upoly))) v :
  (forall conj f, List.In conj conjs -> List.In f conj -> ready f) ->
  let run := foldM (fun formula_value f =>
    let! m := make_relation_map f in
    let! disj_value := decide (r_le m) (r_lt m) (r_eq m) (r_ne m) in
    Ok (if disj_value then false else formula_value)) v conjs in
  exists b, (b = true <-> v = true /\ forall x conj, List.In conj conjs -> ~ all_hold x conj) /\
  (run = Ok b \/ run = Err (Exc "more than 5 polies") /\
     exists conj c P, [/\ List.In conj conjs, List.In (Rel c P 0) conj & (6 < size P)%N]).
Proof.
elim: conjs v => [|conj conjs IH] v rd /=.
  by exists v; split; [split=> [|[]]|left].
have [d [hd hr]] := decide_conj (fun f => rd conj f (or_introl erefl)).
have [b [hb hr']] := IH (if d then false else v) (fun c f ci => rd c f (or_intror ci)).
exists b; split.
  rewrite hb; case: d hd {hr hr' hb} => hd; split=> -[h1 h2].
  - by [].
  - by have [x hx] := hd.1 erefl; case: (h2 x conj (or_introl erefl)).
  - split=> // x c [<- hc|]; last exact: h2.
    by have : false = true by apply/hd; exists x.
  - by split=> // x c ci; apply: h2; right.
move: hr; case: make_relation_map => [m|e] /=; last first.
  case=> // -[[->] [c [P [i s]]]]; right; split=> //.
  by exists conj, c, P; split=> //; left.
case=> [->|[-> [c [P [i s]]]]] /=; last first.
  by right; split=> //; exists conj, c, P; split=> //; left.
case: hr' => [|[-> [cj [c [P [i1 i2 s]]]]]]; [by left|right; split=> //].
by exists cj, c, P; split=> //; right.
Qed.

Notation less := (rewrite_to_less opp_upoly mk_upoly).

Lemma rewrite_ready l f : (forall f, List.In f l -> univariate f) ->
  List.In f (less l) ->
  univariate f /\ (forall t, f = Bool t -> List.In (Bool t) l) /\
  (forall c P Q, f = Rel c P Q -> exists c' P', List.In (Rel c' P' Q) l /\ size P' = size P).
Proof.
move=> u; rewrite In_map => -[g gi ->]; have := u g gi.
case: g gi => [c P Q|t] gi; last first.
  by move=> _; split=> //; split=> // ? [<-].
case=> sP Q0; rewrite {}Q0 in gi *.
have mkE c' : mk_upoly c' (opp_upoly P) (opp_upoly 0) = Rel c' (- P) 0.
  rewrite /mk_upoly /opp_upoly oppr0 size_opp.
  by case: ifP => // /andP[]; rewrite leqNgt sP.
have keep k : univariate (Rel k P 0) /\ (forall t, Rel k P 0 = Bool t -> List.In (Bool t) l) /\
    (forall c0 P0 Q0, Rel k P 0 = Rel c0 P0 Q0 ->
      exists c' P', List.In (Rel c' P' Q0) l /\ size P' = size P0).
  by split=> //; split=> // ? ? ? [_ <- <-]; exists c, P.
have flip k : univariate (Rel k (- P) 0) /\ (forall t, Rel k (- P) 0 = Bool t -> List.In (Bool t) l) /\
    (forall c0 P0 Q0, Rel k (- P) 0 = Rel c0 P0 Q0 ->
      exists c' P', List.In (Rel c' P' Q0) l /\ size P' = size P0).
  by split; [rewrite /= size_opp|split=> // ? ? ? [_ <- <-]; exists c, P; rewrite size_opp].
by case: c {gi}; rewrite ?mkE; do ?[exact: keep|exact: flip].
Qed.

Lemma negate_ready l ns f : (forall f, List.In f l -> univariate f) ->
  negate_relations mk_upoly l = Ok ns -> List.In f ns ->
  exists c c' P, [/\ f = Rel c P 0, (1 < size P)%N & List.In (Rel c' P 0) l].
Proof.
elim: l ns => [|[c P Q|t] l IH] ns u; first by case=> <-.
  rewrite negateR; case e: negate_relations => [r|] //= [<-] /= [<-|fi].
    have [sP ->] := u (Rel c P Q) (or_introl erefl).
    exists (negation_class c), c, P; split=> //; last by left.
    by rewrite /mk_upoly; case: ifP => // /andP[]; rewrite leqNgt sP.
  have [c1 [c2 [P1 [e1 s1 i1]]]] := IH r (fun f fi => u f (or_intror fi)) e fi.
  by exists c1, c2, P1; split=> //; right.
by [].
Qed.

Theorem check_one_result ante succ :
  (forall f, List.In f (ante ++ succ) -> univariate f) ->
  let run := check_one opp_upoly mk_upoly set_of decide (ante, succ) in
  [\/ run = Err (Exc "antecedent or succedent became zero") /\ (only_true ante \/ only_true succ),
      run = Err KeyError /\ List.In (Bool false) succ,
      run = Err (Exc "relation wasn't added") /\ List.In (Bool false) ante |
      exists b, (b = true <-> forall x, all_hold x ante -> all_hold x succ) /\
        (run = Ok b \/ run = Err (Exc "more than 5 polies") /\
           exists c P, List.In (Rel c P 0) (ante ++ succ) /\ (6 < size P)%N)].
Proof.
move=> u /=.
have ua f : List.In f ante -> univariate f by move=> i; apply: u; apply/List.in_app_iff; left.
have us f : List.In f succ -> univariate f by move=> i; apply: u; apply/List.in_app_iff; right.
rewrite /check_one /=.
case: (preformat_err opp_upoly mk_upoly setP ante succ) =>
  [[[conjs e] [n1 [n2 n3]]]|[[-> h]|[-> [_ h]]]]; last 2 first.
- by apply: Or41.
- by apply: Or42.
have [sem _] := preformat_ok upoly_opp upoly_mk setP e; rewrite e bind_ok.
move: e; rewrite /vts_preformat; case: ifP => // /norP[_ ne].
set fa := set_of (filter _ ante); set fs := set_of (filter _ succ).
case en: negate_relations => [ns|] //= [ec].
have uf f l : (forall f, List.In f l -> univariate f) ->
    List.In f (set_of (filter (@not_true _) l)) -> univariate f /\ List.In f l /\ not_true f.
  by move=> ul; rewrite setP In_filter => -[fi nt]; split=> //; exact: ul.
have ufa f : List.In f fa -> univariate f by case/(uf _ _ ua).
have ufs f : List.In f fs -> univariate f by case/(uf _ _ us).
have uns f : List.In f ns -> univariate f.
  by move=> fi; have [c [c' [P [-> s _]]]] := negate_ready ufs en fi.
have bns t : ~ List.In (Bool t) ns.
  by move=> fi; have [c [c' [P []]]] := negate_ready ufs en fi.
have inc conj : List.In conj conjs -> exists2 g, List.In g (less ns) & conj = rcons (less fa) g.
  by rewrite -ec In_map.
have src conj f : List.In conj conjs -> List.In f conj ->
    univariate f /\ (forall t, f = Bool t -> List.In (Bool false) ante) /\
    (forall c P, f = Rel c P 0 -> exists c' P', List.In (Rel c' P' 0) (ante ++ succ) /\ size P' = size P).
  case/inc=> g gi ->; rewrite In_rcons => -[fi|->].
    have [h1 [h2 h3]] := rewrite_ready ufa fi; split=> //; split.
      by move=> t /h2 /(uf _ _ ua)[_ []]; case: t.
    move=> c P /h3[c' [P' [i s]]]; exists c', P'; split=> //.
    by apply/List.in_app_iff; left; case/(uf _ _ ua): i => _ [].
  have [h1 [h2 h3]] := rewrite_ready uns gi; split=> //; split.
    by move=> t /h2 /bns.
  move=> c P /h3[c' [P' [i s]]].
  have [c1 [c2 [P2 [[_ e2] s2 i2]]]] := negate_ready ufs en i.
  exists c2, P2; split; last by rewrite -e2.
  by apply/List.in_app_iff; right; case/(uf _ _ us): i2 => _ [].
have ls conj f : List.In conj conjs -> List.In f conj -> is_less f.
  case/inc=> g gi ->; rewrite In_rcons => -[fi|->].
    by have [? _ []] := Forall2_In2 (rewrite_less upoly_opp upoly_mk fa) fi.
  by have [? _ []] := Forall2_In2 (rewrite_less upoly_opp upoly_mk ns) gi.
case ha: (has (fun f => if f is Bool _ then true else false) (less fa)).
  (* a false antecedent *)
  have [t ti] : exists t, List.In (Bool t) (less fa).
    elim: (less fa) ha => [|[c P Q|t] l IH] //=; first by move=> /IH[t]; exists t; right.
    by exists t; left.
  case: conjs inc ec src ls sem => [|conj conjs] inc ec src ls sem.
    case: (ns) ec en => [|//] _ en.
    by move: ne; have := negate_ok upoly_mk en => F; rewrite -/fs; inversion F.
  apply: Or43.
  have [g gi E] := inc conj (or_introl erefl).
  have ti' : List.In (Bool t) conj by rewrite E In_rcons; left.
  split; last by have [_ [h _]] := src conj _ (or_introl erefl) ti'; exact: h.
  rewrite /= relation_map_err //.
  apply/negP => ac; have : all (fun f => ~~ if f is Bool _ then true else false) conj.
    by apply: sub_all ac => -[[]|].
  by rewrite E all_rcons all_predC ha andbF.
have rd conj f : List.In conj conjs -> List.In f conj -> ready f.
  move=> ci fi; have [uf' _] := src _ _ ci fi; split=> //.
  have := ls _ _ ci fi; case: f fi {uf'} => [[]|t] // fi _; exfalso.
  have [g gi E] := inc _ ci; move: fi; rewrite E In_rcons => -[fi|e].
    elim: (less fa) (negbT ha) fi => [|h l IH] //= /norP[nh nl] [e|]; last exact: IH.
    by rewrite e in nh.
  rewrite -e in gi; have [_ [h _]] := rewrite_ready uns gi.
  exact: bns _ (h t erefl).
have [b [hb hr]] := check_conjs true rd.
apply: Or44; exists b; split.
  split=> [/hb[_ h] x|h]; first by apply/sem => conj; exact: h.
  by apply/hb; split=> // x conj ci; exact: (proj1 (sem x) (h x) conj ci).
case: hr => [|[-> [conj [c [P [ci fi s]]]]]]; [by left|right; split=> //].
have [_ [_ h]] := src _ _ ci fi; have [c' [P' [i s']]] := h _ _ erefl.
by exists c', P'; rewrite s'.
Qed.
End Pipeline.

(** ** make_univariate *)
Section Diagonal.
Variable R : realFieldType.
Variables (simp expand : term -> term) (var_set : seq string -> seq string).
Variable mk : cls -> term -> term -> formula term.
Hypothesis simpP : keeps_value R simp.
Hypothesis expandP : keeps_value R expand.
Hypothesis varP : set_contract var_set.
Hypothesis mkP : mk_term_contract R mk.

Lemma rename_value v w t (e : string -> R) : e v = e w -> tvalue (rename v w t) e = tvalue t e.
Proof.
move=> evw; elim: t => [q|u|a IHa b IHb|a IHa b IHb|a IHa b IHb|a IHa b IHb|a IHa] //=;
  rewrite ?IHa ?IHb //.
by case: (String.eqb_spec u v) => [->|] //; rewrite evw.
Qed.

Lemma rename_vars v w t s : List.In s (tvars (rename v w t)) ->
  s = w \/ List.In s (tvars t) /\ s <> v.
Proof.
elim: t => [q|u|a IHa b IHb|a IHa b IHb|a IHa b IHb|a IHa b IHb|a IHa] //=;
  rewrite ?List.in_app_iff; try by case=> [/IHa|/IHb]; tauto.
by case: (String.eqb_spec u v) => [->|n] [<-|] //; tauto.
Qed.

Lemma diagonal_value vars t (u : R) a : tvalue t (fun=> u) = Some a ->
  tvalue (foldl (fun t v => simp (rename v "x" t)) t vars) (fun=> u) = Some a.
Proof.
elim: vars t => [|v vars IH] t //= h; apply: IH; apply: (proj1 simpP).
by rewrite rename_value.
Qed.

Lemma diagonal_vars vars t s :
  List.In s (tvars (foldl (fun t v => simp (rename v "x" t)) t vars)) ->
  s = "x"%string \/ List.In s (tvars t) /\ ~ List.In s vars.
Proof.
elim: vars t => [|v vars IH] t /=; first by auto.
case/IH=> [->|[/(proj2 simpP)/rename_vars h n]]; first by left.
by case: h => [->|[h1 h2]]; [left|right; split=> // -[/esym|]].
Qed.

Lemma tvalue_ext t (v w : string -> R) : (forall s, List.In s (tvars t) -> v s = w s) ->
  tvalue t v = tvalue t w.
Proof.
elim: t => [q|u|a IHa b IHb|a IHa b IHb|a IHa b IHb|a IHa b IHb|a IHa] //= h;
  do ?[by rewrite IHa ?IHb // => s i; apply: h; rewrite ?List.in_app_iff; tauto].
by rewrite h //; left.
Qed.

Lemma rel_sub c (a b : R) : rel_holds c (a - b) 0 <-> rel_holds c a b.
Proof.
case: c => /=; rewrite ?subr_le0 ?subr_lt0 ?subr_ge0 ?subr_gt0 //.
  by split=> [/eqP|->]; rewrite ?subr_eq0 ?subrr // => /eqP.
by split=> h e; apply: h; rewrite ?e ?subrr //; apply/eqP; rewrite -subr_eq0 e.
Qed.

Lemma make_univariate_ok c a b : exists g,
  make_univariate simp expand var_set mk [:: Rel c a b] = Ok [:: g] /\
  (forall k p q, g = Rel k p q -> [/\ k = c, q = TNum 0 & forall s, List.In s (tvars p) -> s = "x"%string]) /\
  forall (u : R) x y (v : string -> R), v "x"%string = u ->
    tvalue a (fun=> u) = Some x -> tvalue b (fun=> u) = Some y ->
    (tholds v g <-> rel_holds c x y).
Proof.
rewrite /make_univariate /=; set old := simp _; set p := expand _; eexists; split; first by [].
have vp s : List.In s (tvars p) -> s = "x"%string.
  move=> /(proj2 expandP)/diagonal_vars[//|[h []]].
  by apply/varP.
split.
  by case: (mkP c p (TNum 0)) => [->|[t [->]]] // ? ? ? [<- <- <-].
move=> u x y v vu hx hy.
have hp : tvalue p v = Some (x - y).
  rewrite (@tvalue_ext p v (fun=> u)); last by move=> s /vp->.
  apply: (proj1 expandP); apply: diagonal_value; apply: (proj1 simpP).
  by rewrite /= hx hy.
have h0 : tvalue (TNum 0) v = Some 0 :> option R by rewrite /= rmorph0.
case: (mkP c p (TNum 0)) => [->|[t [-> h]]] /=.
  rewrite -rel_sub; split=> [[x' [y' [e1 e2]]]|h].
    by move: e1 e2; rewrite hp rmorph0 => -[<-] [<-].
  by exists (x - y), 0; rewrite rmorph0.
by rewrite -rel_sub; exact: h hp h0.
Qed.

Lemma make_univariate_cons r rs : make_univariate simp expand var_set mk (r :: rs) =
  let! g := make_univariate simp expand var_set mk [:: r] in
  let! gs := make_univariate simp expand var_set mk rs in Ok (g ++ gs).
Proof. by rewrite /make_univariate /=; case: r => [c a b|t] //=. Qed.

Lemma make_univariate_all rs : (forall t, ~ List.In (Bool t) rs) ->
  exists2 gs, make_univariate simp expand var_set mk rs = Ok gs &
  List.Forall2 (fun r g => forall c a b, r = Rel c a b ->
    (forall k p q, g = Rel k p q -> [/\ k = c, q = TNum 0 & forall s, List.In s (tvars p) -> s = "x"%string]) /\
    forall (u : R) x y (v : string -> R), v "x"%string = u ->
      tvalue a (fun=> u) = Some x -> tvalue b (fun=> u) = Some y ->
      (tholds v g <-> tholds (fun=> u) r)) rs gs.
Proof.
elim: rs => [|r rs IH] nb; first by exists [::].
have [|gs e F] := IH; first by move=> t ti; apply: (nb t); right.
case: r nb => [c a b|t] nb; last by case: (nb t); left.
have [g [e1 [h1 h2]]] := make_univariate_ok c a b.
exists (g :: gs); first by rewrite make_univariate_cons e1 e.
constructor=> // ? ? ? [<- <- <-]; split=> // u x y v vu hx hy.
rewrite (h2 u x y v vu hx hy) /=; split=> [h|[x' [y' []]]]; first by exists x, y.
by rewrite hx hy => -[<-] [<-].
Qed.

Lemma make_univariate_bool rs t : List.In (Bool t) rs ->
  make_univariate simp expand var_set mk rs = Err AttributeError.
Proof.
elim: rs => [|r rs IH] // [->|/IH e] //.
by rewrite make_univariate_cons e; case: r.
Qed.
End Diagonal.

(** ** check_examples *)
Section Examples.
Variable E : Type.
Variables (opp : E -> E) (mk : cls -> E -> E -> formula E).
Variable set_of : seq (formula E) -> seq (formula E).
Variable decide : seq E -> seq E -> seq E -> seq E -> res bool.
Notation check_one := (check_one opp mk set_of decide).
Notation check_file := (check_file opp mk set_of decide).
Notation check_examples := (check_examples opp mk set_of decide).

Lemma check_file_ok i l : (i < 3)%N -> (forall ex, List.In ex l -> exists b, check_one ex = Ok b) ->
  exists2 vs, check_file i l = Ok vs &
    size vs = size l /\
    (has (fun iv => ~~ iv.2) vs <-> exists2 ex, List.In ex l & check_one ex = Ok false).
Proof.
move=> i3; rewrite /check_file.
have -> : (i == 3)%N = false by apply: ltn_eqF.
suff h k : (forall ex, List.In ex l -> exists b, check_one ex = Ok b) ->
   exists2 vs, mapM (fun ie : nat * (seq (formula E) * seq (formula E)) =>
      if false && (ie.1 == 0)%N then Ok [::]
      else let! v := check_one ie.2 in Ok [:: (ie.1, v)]) (zip (iota k (size l)) l) = Ok vs &
    size (flatten vs) = size l /\
    (has (fun iv : nat * bool => ~~ iv.2) (flatten vs) <->
     exists2 ex, List.In ex l & check_one ex = Ok false).
  by case/(h 0%N)=> vs -> ?; exists (flatten vs).
elim: l k => [|ex l IH] k h; first by exists [::]; split=> //; split=> // -[].
have [b eb] := h ex (or_introl erefl).
have [|vs e [sz hh]] := IH k.+1; first by move=> e ei; apply: h; right.
exists ([:: (k, b)] :: vs); first by move: e; rewrite /= eb /= => ->.
split; first by rewrite /= sz.
rewrite /=; split.
  case: b eb => eb /=; last by exists ex => //; left.
  by case/hh=> x xi ex0; exists x => //; right.
case=> x [<-|xi] ex0; first by move: ex0; rewrite eb => -[->].
by apply/orP; right; apply/hh; exists x.
Qed.

Lemma check_examples_spec files :
  (forall f ex, List.In f (take 3 files) -> List.In ex f -> exists b, check_one ex = Ok b) ->
  (exists f ex, [/\ List.In f (take 3 files), List.In ex f & check_one ex = Ok false]) /\
    check_examples files = Err TypeError
  \/
  (forall f ex, List.In f (take 3 files) -> List.In ex f -> check_one ex = Ok true) /\
    exists out, check_examples files = Ok out.
Proof.
move=> h; rewrite /check_examples.
set fs := take 3 files in h *.
have sz : (size fs <= 3)%N by rewrite size_take; case: ltnP.
have [out e hh] : exists2 out, mapM (fun fe => let! vs := check_file fe.1 fe.2 in Ok (fe.1, vs))
    (zip (iota 0 3) fs) = Ok out &
    (has (fun fv : nat * seq (nat * bool) => has (fun iv => ~~ iv.2) fv.2) out <->
     exists f ex, [/\ List.In f fs, List.In ex f & check_one ex = Ok false]).
  suff gen n k : (size fs <= n)%N -> (k + n <= 3)%N ->
      exists2 out, mapM (fun fe => let! vs := check_file fe.1 fe.2 in Ok (fe.1, vs))
        (zip (iota k n) fs) = Ok out &
      (has (fun fv : nat * seq (nat * bool) => has (fun iv => ~~ iv.2) fv.2) out <->
       exists f ex, [/\ List.In f fs, List.In ex f & check_one ex = Ok false]).
    exact: gen.
  elim: fs n k h {sz} => [|f fs IH] n k h sz kn.
    exists [::]; first by case: n {sz kn}.
    by split=> // -[f [ex []]].
  case: n sz kn => [|n] // sz kn.
  have [||vs e [_ hv]] := @check_file_ok k f; first by lia.
    by move=> ex; apply: h; left.
  have [|||out e' ho] := IH n k.+1; [by move=> g ex gi; apply: h; right|by []|lia|].
  exists ((k, vs) :: out); first by rewrite /= e /= e'.
  rewrite /=; split.
    case/orP=> [/hv[ex xi e0]|/ho[g [ex [gi xi e0]]]]; first by exists f, ex; split=> //; left.
    by exists g, ex; split=> //; right.
  case=> g [ex [[<-|gi] xi e0]]; apply/orP; first by left; apply/hv; exists ex.
  by right; apply/ho; exists g, ex.
rewrite e bind_ok; case: ifP => hs.
  by left; split=> //; apply/hh.
right; split; last by eexists.
move=> f ex fi xi; have [[] // eb] := h f ex fi xi.
by have : has (fun fv : nat * seq (nat * bool) => has (fun iv => ~~ iv.2) fv.2) out;
  [apply/hh; exists f, ex|rewrite hs].
Qed.
End Examples.
