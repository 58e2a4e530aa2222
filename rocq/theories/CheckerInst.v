(** Concrete cases for the checker properties. *)
From Coq Require Import String.
From mathcomp Require Import all_ssreflect all_algebra.
From mathcomp.real_closed Require Import polyrcf realalg.
From mathcomp.zify Require Import zify.
From Verif Require Import Py VtsModel VtsSpec VtsInst IsymModel IsymSpec IsymFacts.
From Verif Require Import CheckerModel CheckerSpec CheckerFacts.

Set Implicit Arguments.
Unset Strict Implicit.
Unset Printing Implicit Defensive.
Import GRing.Theory Num.Theory Order.POrderTheory Order.TotalTheory.
Local Open Scope ring_scope.

Lemma mk_upoly_rel c (P : {poly rat}) : (1 < size P)%N -> mk_upoly c P 0 = Rel c P 0.
Proof. by move=> s; rewrite /mk_upoly; case: ifP => // /andP[]; rewrite leqNgt s. Qed.

Lemma size_X1 : size ('X - 1 : {poly rat}) = 2%N.
Proof. exact: size_XsubC. Qed.

Lemma upoly_example :
  negate_relations mk_upoly [:: Rel CLe 'X 0; Rel CEq 'X 0] = Ok [:: Rel CGt 'X 0; Rel CNe 'X 0] /\
  rewrite_to_less opp_upoly mk_upoly [:: Rel CGt 'X 0; Rel CNe 'X 0] =
    [:: Rel CLt (- 'X) 0; Rel CNe 'X 0].
Proof.
rewrite /negate_relations /rewrite_to_less [mapM _ _]/= [map _ _]/=.
by rewrite /opp_upoly oppr0 !mk_upoly_rel ?size_opp ?size_polyX.
Qed.

Lemma upoly_preformat_example :
  vts_preformat opp_upoly mk_upoly id [:: Bool true; Rel CGe ('X - 1) 0] [:: Rel CGt 'X 0] =
  Ok [:: [:: Rel CLe (- ('X - 1)) 0; Rel CLe 'X 0]].
Proof.
rewrite /vts_preformat /negate_relations /rewrite_to_less [filter _ _]/= [size _ == _]/=.
rewrite [mapM _ _]/= mk_upoly_rel ?size_polyX // bind_ok.
by rewrite [map _ _]/= /opp_upoly oppr0 mk_upoly_rel ?size_opp ?size_X1.
Qed.

Section Generic.
Variables (R : realDomainType) (E Pt : Type) (val : E -> Pt -> R).
Variables (opp : E -> E) (mk : cls -> E -> E -> formula E).
Variable set_of : seq (formula E) -> seq (formula E).
Hypothesis oppP : opp_contract val opp.
Hypothesis mkP : mk_contract val mk.
Hypothesis setP : set_contract set_of.

Lemma preformat_single ante f conjs : vts_preformat opp mk set_of ante [:: f] = Ok conjs ->
  forall x, (all_hold val x ante -> some_hold val x [:: f]) <->
            (forall conj, List.In conj conjs -> ~ all_hold val x conj).
Proof.
move=> e x; have [h _] := preformat_ok oppP mkP setP e; rewrite -h.
split=> h' ha; first by move=> g [<-|//]; have [k [<-|]] := h' ha.
by exists f; [left|apply: (h' ha); left].
Qed.

Lemma preformat_one_way ante succ conjs x : vts_preformat opp mk set_of ante succ = Ok conjs ->
  (forall conj, List.In conj conjs -> ~ all_hold val x conj) ->
  all_hold val x ante -> some_hold val x succ.
Proof.
move=> e hn ha; have [h _] := preformat_ok oppP mkP setP e.
have := (proj2 (h x) hn) ha.
case: (preformat_err opp mk setP ante succ) => [[_ [_ [n _]]]|[[]|[]]]; try by rewrite e.
case: succ n {e h} => [|f succ] n hs; first by case: n.
by exists f; [left|apply: hs; left].
Qed.
End Generic.

Lemma rvalueX (R : rcfType) (x : R) : rvalue 'X x = x.
Proof. by rewrite /rvalue map_polyX hornerX. Qed.
Lemma rvalue0 (R : rcfType) (x : R) : rvalue 0 x = 0.
Proof. by rewrite /rvalue map_poly0 horner0. Qed.
Lemma rvalueN (R : rcfType) P (x : R) : rvalue (- P) x = - rvalue P x.
Proof. by rewrite /rvalue raddfN /= hornerN. Qed.
Lemma rvalueX1 (R : rcfType) (x : R) : rvalue ('X - 1) x = x - 1.
Proof. by rewrite /rvalue raddfB /= map_polyX rmorph1 hornerD hornerN hornerX hornerC. Qed.

(** x >= 0 implies x < 0 or x >= 0. *)
Lemma preformat_disjunction (R : rcfType) :
  exists ante succ conjs,
  [/\ vts_preformat opp_upoly mk_upoly id ante succ = Ok conjs,
      forall x : R, all_hold (@rvalue R) x ante -> some_hold (@rvalue R) x succ &
      exists conj, List.In conj conjs /\ exists x : R, all_hold (@rvalue R) x conj].
Proof.
exists [:: Rel CGe 'X 0], [:: Rel CLt 'X 0; Rel CGe 'X 0],
  [:: [:: Rel CLe (- 'X) 0; Rel CLe (- 'X) 0]; [:: Rel CLe (- 'X) 0; Rel CLt 'X 0]].
split.
- rewrite /vts_preformat /negate_relations /rewrite_to_less [filter _ _]/= [size _ == _]/=.
  rewrite [mapM _ _]/= !mk_upoly_rel ?size_polyX // bind_ok.
  by rewrite [map _ _]/= /opp_upoly oppr0 mk_upoly_rel ?size_opp ?size_polyX.
- by move=> x h; exists (Rel CGe 'X 0); [right; left|apply: h; left].
- exists [:: Rel CLe (- 'X) 0; Rel CLe (- 'X) 0]; split; first by left.
  exists 0 => f /= h; have -> : f = Rel CLe (- 'X) 0 by case: h => [<-|[<-|]].
  by rewrite /= rvalueN rvalueX rvalue0 oppr0.
Qed.

Definition check_oneZ := check_one opp_upoly mk_upoly id (decide_vts injZ strZ rootsZ invQ).

Lemma check_oneZ_run ante succ :
  (forall f, List.In f (ante ++ succ) -> exists c (P : {poly rat}), f = Rel c P 0 /\ (1 < size P <= 6)%N) ->
  ante <> [::] -> succ <> [::] ->
  exists2 b, check_oneZ (ante, succ) = Ok b &
  (b = true <-> forall x : RA, all_hold (@rvalue RA) x ante -> all_hold (@rvalue RA) x succ).
Proof.
move=> h na ns.
have hs : set_contract (@id (seq (formula {poly rat}))) by [].
have u f : List.In f (ante ++ succ) -> univariate f.
  by move=> /h[c [P [-> /andP[]]]].
have nb t l : (forall f, List.In f l -> List.In f (ante ++ succ)) -> ~ List.In (Bool t) l.
  by move=> sub /sub /h[c [P []]].
have ia f : List.In f ante -> List.In f (ante ++ succ) by move=> i; apply/List.in_app_iff; left.
have is_ f : List.In f succ -> List.In f (ante ++ succ) by move=> i; apply/List.in_app_iff; right.
have no l : l <> [::] -> (forall f, List.In f l -> List.In f (ante ++ succ)) -> ~ only_true l.
  case: l => [|f l] // _ sub ot; apply: (nb true (f :: l) sub); left.
  by apply: ot; left.
have [] := check_one_result strZ_inj invQ_contract rootsZ_contract hs u.
- by case=> _ [/(no _ na ia)|/(no _ ns is_)].
- by case=> _ /(nb _ _ is_).
- by case=> _ /(nb _ _ ia).
case=> b [hb [e|[_ [c [P [/h[c' [P' [[_ -> ] /andP[_]]]]]]]]]]; first by exists b.
by rewrite ltnNge => ->.
Qed.

Lemma check_oneZ_valid : check_oneZ ([:: Rel CGe ('X - 1) 0], [:: Rel CGt 'X 0]) = Ok true.
Proof.
have [|||b -> hb] := @check_oneZ_run [:: Rel CGe ('X - 1) 0] [:: Rel CGt 'X 0]; [|by []|by []|].
  by move=> f /= [<-|[<-|//]]; [exists CGe, ('X - 1); rewrite size_X1|exists CGt, 'X; rewrite size_polyX].
congr Ok; apply/hb => x ha f [<-|//].
have := ha (Rel CGe ('X - 1) 0) (or_introl erefl).
rewrite /= !rvalue0 rvalueX rvalueX1 subr_ge0; exact: lt_le_trans ltr01.
Qed.

Lemma check_oneZ_invalid : check_oneZ ([:: Rel CGt 'X 0], [:: Rel CGe ('X - 1) 0]) = Ok false.
Proof.
have [|||b -> hb] := @check_oneZ_run [:: Rel CGt 'X 0] [:: Rel CGe ('X - 1) 0]; [|by []|by []|].
  by move=> f /= [<-|[<-|//]]; [exists CGt, 'X; rewrite size_polyX|exists CGe, ('X - 1); rewrite size_X1].
congr Ok; apply/negbTE/negP => /hb /(_ (2%:R^-1)) h.
have : all_hold (@rvalue RA) 2%:R^-1 [:: Rel CGe ('X - 1) 0].
  by apply: h => f [<-|//]; rewrite /= rvalue0 rvalueX invr_gt0 ltr0n.
move=> /(_ _ (or_introl erefl)); rewrite /= rvalue0 rvalueX1 subr_ge0.
by rewrite leNgt invf_lt1 ?ltr0n // ltr1n.
Qed.

Lemma check_examples_crash :
  exists files, (forall f ex, List.In f files -> List.In ex f -> check_oneZ ex = Ok false) /\
    check_examples opp_upoly mk_upoly id (decide_vts injZ strZ rootsZ invQ) files = Err TypeError.
Proof.
exists [:: [:: ([:: Rel CGt 'X 0], [:: Rel CGe ('X - 1) 0])]].
have all_ f ex : List.In f [:: [:: ([:: Rel CGt 'X 0], [:: Rel CGe ('X - 1) 0])]] ->
   List.In ex f -> check_oneZ ex = Ok false.
  by move=> [<-|//] [<-|//]; exact: check_oneZ_invalid.
split=> //.
have [f ex fi xi|[_ //]|[h _]] := @check_examples_spec _ opp_upoly mk_upoly id
  (decide_vts injZ strZ rootsZ invQ) [:: [:: ([:: Rel CGt 'X 0], [:: Rel CGe ('X - 1) 0])]].
  by exists false; exact: all_ fi xi.
have := h _ _ (or_introl erefl) (or_introl erefl).
by rewrite -/check_oneZ -/(check_oneZ _) check_oneZ_invalid.
Qed.
