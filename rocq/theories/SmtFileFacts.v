(** Soundness of the hiding of files with several sequents in several variables. *)
From Coq Require Import String Ascii.
From mathcomp Require Import all_ssreflect all_algebra.
From mathcomp.zify Require Import zify.
From mathcomp.real_closed Require Import polyrcf.
From Verif Require Import Py CheckerModel GParserModel GParserSpec GParserFacts CheckerSpec
  GrfModel GrfCad GrfSpec GrfFacts GrfCheck GrfLoop GrfRun GrfPick GrfLine GrfCadFacts GrfLin GrfAgain GrfAgainFacts
  GrfSmt GrfSmtFacts GrfSmtEx SmtParse SmtParseSpec SmtParseFacts SmtParseEx SmtFile.

Set Implicit Arguments.
Unset Strict Implicit.
Unset Printing Implicit Defensive.
Import GRing.Theory Num.Theory Order.Theory.
Local Open Scope ring_scope.

Section Reading.
Variables (R : realDomainType) (L : lib R) (A : arith (P L)).
Variables (W : Type) (perform : W -> nat -> seq (atom L) -> seq (atom L) -> res (W * (seq nat * seq nat))).

Lemma sequents_ok (K : realFieldType) (val : P L -> (var -> K) -> K) qs s : arith_ok val A -> problems_text qs s ->
  ~~ has problem_divides qs \/ (forall p r e, a_div A p r <> Err e) ->
  forall st, good_ctx (names st) -> exists l c2,
  [/\ good_ctx c2, ext (names st) c2 /\ {subset map key_of (file_names qs) <= keys c2},
      forall c3, ext c2 c3 -> List.Forall2 (reading val (nu_of c3)) qs l,
      forall k w last, (size s < k)%N -> finish (p_cmds A perform k w last st s) = in_order perform w last l &
      forall k, (size s < k)%N -> sequents A k st s = l].
Proof.
move=> AO; elim=> {qs s} [s hs _ st G|q s qs s' hq hqs IH hd st G].
  exists [::], (names st); split=> // [|[|k] w last // _|[|k] // _]; [by split|exact: p_cmds_end|].
  by rewrite /= (_ : p_cmd A st s = No st) // /p_cmd; apply: sq_no; apply: p_lpar_no; rewrite skip_all.
have [E [B Re]] := p_cmd_ok A hq.
have hd' : ~~ has problem_divides qs \/ (forall p r e, a_div A p r <> Err e).
  by case: hd => [|h]; [rewrite /= negb_or => /andP[_ ->]; left|right].
case Es : (E st) => [[st1 h]|e]; last first.
  have [D [p [r Er]]] := q_err B G Es.
  by case: hd => [/=|/(_ _ _ _ Er)//]; rewrite D.
have [G1 X1 N1 I1 M1] := q_ok B G Es.
have [l [c2 [G2 [X2 S2] F2 P2 Q2]]] := IH hd' st1 G1.
have S1 : {subset map key_of (problem_names q) <= keys (names st1)} by move=> k; rewrite M1 mem_cat orbC => ->.
have sz k : (size (s ++ s') < k.+1)%N -> (size s' < k)%N.
  by rewrite size_cat; have := problem_size hq; lia.
exists ((nvars (names st1), h) :: l), c2; split=> //.
- split; first exact: ext_trans X1 X2.
  move=> k; rewrite /file_names /= map_cat mem_cat => /orP[/S1|/S2//].
  by move=> H; have [i /X2 Hi] := dget_mem H; exact: dget_dmem Hi.
- move=> c3 X3; have [Sa Ss] := q_says B AO G Es (ext_trans X2 X3).
  apply: List.Forall2_cons; last exact: F2.
  split=> //; first by rewrite I1 iota_uniq.
  exact: below_keys (ext_trans X2 X3) S1.
- move=> [|k] w last // /sz hk; rewrite (p_cmds_one _ hq Re) // Es /=.
  by case: (perform _ _ _ _) => [[w' x]|//]; apply: P2.
- by move=> [|k] // /sz hk; rewrite /= (Re st s' G isT) Es /= Q2.
Qed.
Lemma file_sequents_reading (K : realFieldType) (val : P L -> (var -> K) -> K) qs s : arith_ok val A ->
  problems_text qs s -> ~~ has problem_divides qs \/ (forall p r e, a_div A p r <> Err e) ->
  exists nu, [/\ numbering (file_names qs) nu, List.Forall2 (reading val nu) qs (file_sequents A s) &
    forall w, process_commands A perform w s = in_order perform w None (file_sequents A s)].
Proof.
move=> AO hs hd; have [l [c2 [G2 [_ S2] F2 P2 Q2]]] := sequents_ok AO hs hd (st := Pst (new_ctx sname) 0) (@new_good _).
rewrite /file_sequents Q2 //.
exists (nu_of c2); split=> [||w]; [exact: numbering_keys|exact: F2|exact: P2].
Qed.

(** An invariant of the state holds before the last sequent. *)
Lemma in_order_inv (I : W -> Prop) (Q : nat * hiding_problem L -> Prop) w last l o :
  (forall w x w' r, I w -> Q x -> perform w x.1 (hp_ante x.2) (hp_succ x.2) = Ok (w', r) -> I w') ->
  I w -> (forall x, List.In x l -> Q x) -> in_order perform w last l = Ok o ->
  match l with
  | [::] => o = last
  | x :: l' => exists w' w'' r, [/\ I w', Q (seq.last x l'),
      perform w' (seq.last x l').1 (hp_ante (seq.last x l').2) (hp_succ (seq.last x l').2) = Ok (w'', r) &
      o = Some (hp_name (seq.last x l').2, r)]
  end.
Proof.
move=> HI; elim: l w last => [|[n h] l IH] w last Iw Ql /=; first by case.
have Qx := Ql (n, h) (or_introl erefl).
case Ep : (perform _ _ _ _) => [[w' r]|[]] // /IH; case: l {IH} Ql => [|y l] Ql.
  by move=> /(_ (HI _ _ _ _ Iw Qx Ep)) -> //; exists w, w', r.
by move=> X; apply: X; [exact: (HI _ _ _ _ Iw Qx Ep)|move=> x Hx; apply: Ql; right].
Qed.
End Reading.

Section Same.
Variables (R : realDomainType) (L : lib R) (O : oracle L).
Variable solve : nat -> seq constraint -> seq nat -> res (nat -> bool).
Variable sample : addr -> option (goal L) -> seq (P L) -> seq (atom L) -> res (seq (dict [eqType of var] R) * seq (P L)).
Lemma perform_qE fuel k eps cs top order antecedent succedent :
  perform_grf O solve sample fuel k eps cs top order antecedent succedent =
  (let! r := perform_q O solve sample fuel k eps cs top order antecedent succedent in Ok r.1).
Proof.
rewrite /perform_grf /perform_q; case: (pyget _ _) => [m|//]; rewrite !bind_ok check_qE.
by case: (check_q _ _ _ _ _ _ _ _ _ _) => [[[r s'] t]|].
Qed.
Lemma perform_q_inv fuel k eps cs top order antecedent succedent ha hs s' t :
  perform_q O solve sample fuel k eps cs top order antecedent succedent = Ok (ha, hs, s', t) ->
  exists pre g r, let ante := antecedent ++ [seq negate h | h <- rev pre] in succedent = rcons pre g /\
    check_q O solve sample fuel true k eps cs top (Decide ante (Goal g [::] [::]) order) = Ok (r, s', t).
Proof.
rewrite /perform_q; case: (lastP succedent) => [//|pre g]; rewrite size_rcons ltnS.
have E0 : (if (0 < size pre)%N then rev (rcons pre g) else rcons pre g) = g :: rev pre.
  by case: (pre) => // a l; rewrite rev_rcons.
have E1 : (if (0 < size pre)%N then [seq negate h | h <- rev pre] else [::]) = [seq negate h | h <- rev pre].
  by case: (pre) => // a l.
rewrite E0 [behead _]/= E1 [pyget _ _]/= bind_ok => H; case: (bind_inv H) => -[[r s2] t2] Ec {H} [_ _ <- <-].
by exists pre, g, r.
Qed.
End Same.

(** ** The order of the variables is set once *)
Lemma file_order (R : realDomainType) (L : lib R) (O : oracle L) solve sample fuel k eps cs (w w' : fstate L) n a s r :
  f_order w <> [::] -> file_action O solve sample fuel k eps cs w n a s = Ok (w', r) -> f_order w' = f_order w.
Proof.
move=> V; rewrite /file_action; case E: (perform_q _ _ _ _ _ _ _ _ _ _ _) => [[[[ha hs] s'] t]|//]; rewrite bind_ok => -[<- _] /=.
have [pre [g [r' [_ Ec]]]] := perform_q_inv E.
by have [-> //] := check_order (check_q_check Ec).
Qed.

Section Sound.
Variables (R : realDomainType) (L : lib R) (O : oracle L) (K : rcfType) (inj : R -> K).
Variables (val : P L -> (var -> K) -> K) (uval : U L -> {poly K}).
Hypotheses (LB : lib_ok inj val) (LC : cad_ok val uval) (LL : line_ok O inj uval) (LN : lin_ok inj val uval).
Variable C : nat -> pred (P L).
Hypothesis SC : forall n, solvable_class inj uval (C n) n.
Variables (A : arith (P L)) (AO : arith_ok val A).
Variable solve : nat -> seq constraint -> seq nat -> res (nat -> bool).
Variable num : nat.
Hypothesis num0 : (0 < num)%N.
Variables (fuel k : nat) (eps : R) (cs : option (seq command)).
Local Notation action := (file_action O solve (fun n => sample_pt_dicts O n num) fuel k eps cs).

Definition kept (w : fstate L) : Prop := all (C (f_vars w)) (f_top w).
Definition fit (x : nat * hiding_problem L) : Prop :=
  [/\ all (fun a => C x.1 (apoly a) && atom_wf a) (hp_ante x.2 ++ hp_succ x.2),
      all (fun a => ~~ is_eqn a) (hp_ante x.2), all (fun a => ~~ is_neqn a) (hp_succ x.2) &
      uniq (map (@aid R L) (hp_ante x.2 ++ hp_succ x.2))].

Lemma action_step w x w' ha hs : kept w -> fit x ->
  action w x.1 (hp_ante x.2) (hp_succ x.2) = Ok (w', (ha, hs)) ->
  kept w' /\ forall e, all_true val (unhidden ha (hp_ante x.2)) e ==>
    has (fun a => atom_true val a e) (unhidden hs (hp_succ x.2)).
Proof.
case: x => n [nm a s] /= Kw [/= Ca Na Ns U]; rewrite /file_action; set top := if _ then _ else _.
have Ct : all (C n) top by rewrite /top; case: eqP Kw => // <-.
case E : (perform_q _ _ _ _ _ _ _ _ _ _ _) => [[[[ha' hs'] s'] t]|//] /= [<- <- <-].
have Ep : perform_grf O solve (sample_pt_dicts O n num) fuel k eps cs top (f_order w) a s = Ok (ha', hs', s').
  by rewrite perform_qE E.
have [pre [g [r [Es Eq]]]] := perform_q_inv E.
have Ec : check O solve (sample_pt_dicts O n num) fuel true k eps cs top
    (Decide (a ++ [seq negate h | h <- rev pre]) (Goal g [::] [::]) (f_order w)) = Ok (r, s').
  exact: check_q_check Eq.
have Il : in_lin (C n) (Decide (a ++ [seq negate h | h <- rev pre]) (Goal g [::] [::]) (f_order w)).
  move: Ca Ns; rewrite Es all_cat !all_rcons => /and3P[Ca Cg Cp] /andP[_ Np].
  rewrite /in_lin /= Cg /= !all_cat Ca Na /= !all_map !all_rev; apply/andP; split; first exact: sub_all Cp.
  by apply: sub_all Np => h; rewrite /is_eqn /is_neqn /=; case: (aop h).
split; first by exact: (check_q_store (SC n) Eq Ct Il).
by move=> e; apply: (perform_sound LB Ep U); exact: (check_lin_sound LB LC LL LN (SC n) num0 Ec).
Qed.

(** What a reading means for the formulas that are written. *)
Lemma reading_entails names nu q nh ha hs : numbering names nu -> (forall z, List.In z (problem_names q) -> List.In z names) -> reading val nu q nh ->
  (forall e, all_true val (unhidden ha (hp_ante nh.2)) e ==> has (fun a => atom_true val a e) (unhidden hs (hp_succ nh.2))) ->
  forall v : string -> K, (forall f, List.In f (pb_ante q ++ pb_succ q) -> formula_holds v f <> None) ->
    entails v (remaining ha (pb_ante q)) (remaining hs (pb_succ q)).
Proof.
move=> N sub0 Rd T v hv; have [_ Ha Hs _ _] := Rd.
have [env he] := numbering_env v N.
have Q f z : List.In f (pb_ante q ++ pb_succ q) -> List.In z (formula_names f) -> env (nu z) = v z.
  move=> hf hx; apply: he; apply: sub0; rewrite /problem_names.
  elim: (pb_ante q ++ pb_succ q) hf => //= g l IH [->|/IH h']; apply/List.in_or_app; [by left|by right].
have sub i (fs : seq formula2) g : List.In g (remaining i fs) -> List.In g fs by exact: In_mask.
have L1 g : List.In g (remaining ha (pb_ante q)) -> List.In g (pb_ante q ++ pb_succ q).
  by move=> /sub hg; apply/List.in_or_app; left.
have L2 g : List.In g (remaining hs (pb_succ q)) -> List.In g (pb_ante q ++ pb_succ q).
  by move=> /sub hg; apply/List.in_or_app; right.
have T1 := formulas_true (Forall2_remaining ha Ha) (fun g z hg => Q g z (L1 g hg)) (fun g hg => hv g (L1 g hg)).
have T2 := formulas_true (Forall2_remaining hs Hs) (fun g z hg => Q g z (L2 g hg)) (fun g hg => hv g (L2 g hg)).
have := T env; rewrite !unhiddenE /entails /all_true.
have A1 := congr1 (all id) T1; rewrite !all_map in A1.
have A2 := congr1 (has id) T2; rewrite !has_map in A2.
by rewrite -[all _ (remaining ha (pb_ante q))]A1 -[has _ (remaining hs (pb_succ q))]A2.
Qed.

Lemma reading_ops nu q nh : reading val nu q nh -> ~~ has is_equation (pb_ante q) -> ~~ has is_disequation (pb_succ q) ->
  all (fun a => ~~ is_eqn a) (hp_ante nh.2) /\ all (fun a => ~~ is_neqn a) (hp_succ nh.2).
Proof.
case=> _ Ha Hs _ _.
have ne fs l (Pr : formula2 -> bool) (Qr : atom L -> bool) : (forall f a, says val nu f a -> Qr a = Pr f) ->
  List.Forall2 (says val nu) fs l -> ~~ has Pr fs -> all (fun a => ~~ Qr a) l.
  move=> hpq; elim=> //= g b l1 l2 hg _ IH; rewrite negb_or => /andP[hp /IH ->].
  by rewrite (hpq _ _ hg) hp.
move=> h1 h2; split.
  by apply: (ne _ _ is_equation) Ha h1 => f a [Eo _ _]; rewrite /is_eqn /is_equation Eo.
by apply: (ne _ _ is_disequation) Hs h2 => f a [Eo _ _]; rewrite /is_neqn /is_disequation Eo.
Qed.
Lemma reading_wf nu q nh : reading val nu q nh -> all (@atom_wf R L) (hp_ante nh.2 ++ hp_succ nh.2).
Proof.
case=> _ Ha Hs _ _; have W fs l : List.Forall2 (says val nu) fs l -> all (@atom_wf R L) l.
  by elim=> //= f a l1 l2 [_ Ev _] _ ->; rewrite /atom_wf Ev andbT; apply/allP.
by rewrite all_cat (W _ _ Ha) (W _ _ Hs).
Qed.

Lemma Forall2_In (T T' : Type) (r : T -> T' -> Prop) l l' y : List.Forall2 r l l' -> List.In y l' ->
  exists2 x, List.In x l & r x y.
Proof.
by elim=> //= a b l0 l0' hab _ IH [<-|/IH[x hx hr]]; [exists a => //; left|exists x => //; right].
Qed.
Lemma last_In (T : Type) (x : T) l : List.In (last x l) (x :: l).
Proof. by elim: l x => [|y l IH] x /=; [left|right; exact: IH]. Qed.
Lemma names_In (q : problem) qs x : List.In q qs -> List.In x (problem_names q) -> List.In x (file_names qs).
Proof.
elim: qs => //= p qs IH [->|/IH H] Hx; rewrite /file_names /=; apply/List.in_or_app; [by left|right; exact: H].
Qed.

Theorem file_sound q qs s name ha hs : problems_text (q :: qs) s ->
  ~~ has problem_divides (q :: qs) \/ (forall p r e, a_div A p r <> Err e) ->
  (forall n h, List.In (n, h) (file_sequents A s) -> all (fun a => C n (apoly a)) (hp_ante h ++ hp_succ h)) ->
  (forall p, List.In p (q :: qs) -> ~~ has is_equation (pb_ante p) && ~~ has is_disequation (pb_succ p)) ->
  process_commands A action (new_fstate L) s = Ok (Some (name, (ha, hs))) ->
  name = pb_name (last q qs) /\
  forall v : string -> K, (forall f, List.In f (pb_ante (last q qs) ++ pb_succ (last q qs)) -> formula_holds v f <> None) ->
    entails v (remaining ha (pb_ante (last q qs))) (remaining hs (pb_succ (last q qs))).
Proof.
move=> hs0 hd hC hop; have [nu [N F ->]] := file_sequents_reading action AO hs0 hd; move: hC F.
case: (file_sequents A s) => [|x l] hC F; first by inversion F.
have Q y : List.In y (x :: l) -> fit y.
  case: y => n h Iy; have [p Ip Rd] := Forall2_In F Iy; have /andP[h1 h2] := hop _ Ip.
  have [o1 o2] := reading_ops Rd h1 h2; split=> //; last by case: Rd.
  by have := reading_wf Rd; rewrite /= all_predI (hC _ _ Iy).
have St w y w' r : kept w -> fit y -> action w y.1 (hp_ante y.2) (hp_succ y.2) = Ok (w', r) -> kept w'.
  by case: r => a b Kw Fy /(action_step Kw Fy)[].
move=> Eo; have [w1 [w2 [r [K1 Q1 Ep]]]] := in_order_inv St (isT : kept (new_fstate L)) Q Eo.
have Rd := Forall2_last F; rewrite -(rd_name Rd) => -[-> Er]; split=> //; rewrite -{r}Er in Ep.
have [_ T] := action_step K1 Q1 Ep.
apply: (reading_entails N _ Rd T) => z; apply: names_In; exact: last_In.
Qed.
End Sound.
