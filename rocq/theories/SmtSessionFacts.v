(** Facts about the life of a ParseSMT object. *)
From Coq Require Import String Ascii.
From mathcomp Require Import all_ssreflect all_algebra.
From mathcomp.zify Require Import zify.
From Verif Require Import Py CheckerModel GParserModel GParserSpec GParserFacts CheckerSpec
  GrfModel GrfSpec GrfSmt GrfSmtFacts SmtParse SmtParseSpec SmtParseFacts SmtSession SmtSessionSpec.

Set Implicit Arguments.
Unset Strict Implicit.
Unset Printing Implicit Defensive.

Lemma skip_nil s : skip s = [::] -> blank s.
Proof. by rewrite /blank (eq_all blankE); elim: s => //= c s IH; case: (is_space c). Qed.

Section Facts.
Variables (R : realDomainType) (L : lib R) (A : arith (P L)) (settings W : Type).
Local Notation context := (context L settings).
Local Notation store := (store L settings).
Implicit Types (st : store) (s r : text).

Definition view (i : nat) st : pst := Pst (cnames (heap st i)) (next st).

(** What an attempt to read a command may change. *)
Definition kept (i : nat) st st' : Prop :=
  [/\ cset (heap st' i) = cset (heap st i), cseq (heap st' i) = cseq (heap st i),
      chide (heap st' i) = chide (heap st i) & forall j, j != i -> heap st' j = heap st j].

Lemma kept_refl i st : kept i st st. Proof. by []. Qed.
Lemma kept_trans i st st' st'' : kept i st st' -> kept i st' st'' -> kept i st st''.
Proof.
move=> [a1 a2 a3 a4] [b1 b2 b3 b4]; split; rewrite ?b1 ?b2 ?b3 //.
by move=> j hj; rewrite b4 // a4.
Qed.
Lemma kept_back i st (q : pst) : kept i st (Store (heap (change i (set_names (names q)) st)) (fresh q)).
Proof. by split; rewrite /= ?eqxx // => j hj; rewrite (negbTE hj). Qed.
Lemma kept_ante i st fs : kept i st (change i (set_ante fs) st).
Proof. by split; rewrite /= ?eqxx // => j hj; rewrite (negbTE hj). Qed.
Lemma kept_succ i st fs : kept i st (change i (set_succ fs) st).
Proof. by split; rewrite /= ?eqxx // => j hj; rewrite (negbTE hj). Qed.

(** An element that does not set the formulas. *)
Lemma on_spec i T (p : elt pst T) st s :
  match p (view i st) s with
  | Yes a r q => exists st', [/\ on i p st s = Yes a r st', view i st' = q, kept i st st',
      cante (heap st' i) = cante (heap st i) & csucc (heap st' i) = csucc (heap st i)]
  | No q => exists2 st', on i p st s = No st' & kept i st st'
  | Raise e => on i p st s = Raise e
  end.
Proof.
rewrite /on -/(view i st); case: (p _ _) => [a r q|q|e] //.
  eexists; split=> //=; rewrite ?eqxx //; last exact: kept_back.
  by rewrite /view /= eqxx; case: q.
by eexists => //; exact: kept_back.
Qed.

Lemma s_cmdE i st s :
  match p_cmd A (view i st) s with
  | Yes h r q => exists st', [/\ s_cmd A i st s = Yes (hp_name h) r st', view i st' = q, kept i st st',
      cante (heap st' i) = hp_ante h & csucc (heap st' i) = hp_succ h]
  | No q => exists2 st', s_cmd A i st s = No st' & kept i st st'
  | Raise e => s_cmd A i st s = Raise e
  end.
Proof.
rewrite /p_cmd /s_cmd /s_side; move: (size s).+1 => n.
rewrite /sq; have := on_spec i p_lpar st s.
case: (p_lpar _ _) => [u1 r1 q1|q1|e] /=; last 2 first.
- by case=> st1 -> k1; exists st1.
- by move=> ->.
case=> st1 [-> <- k1 a1 c1] {q1}.
have := on_spec i (lit (chars "sequent")) st1 r1.
case: (lit _ _ _) => [u2 r2 q2|q2|e] /=; last 2 first.
- by case=> st2 -> k2; exists st2 => //; exact: kept_trans k1 k2.
- by move=> ->.
case=> st2 [-> <- k2 a2 c2] {q2}; have K2 := kept_trans k1 k2.
have := on_spec i (@quoted_string _) st2 r2.
case: (quoted_string _ _) => [name r3 q3|q3|e] /=; last 2 first.
- by case=> st3 -> k3; exists st3 => //; exact: kept_trans K2 k3.
- by move=> ->.
case=> st3 [-> <- k3 a3 c3] {q3}; have K3 := kept_trans K2 k3.
have := on_spec i (p_side A n (chars "antecedent")) st3 r3.
case: (p_side _ _ _ _ _) => [fs r4 q4|q4|e] /=; last 2 first.
- by case=> st4 -> k4; exists st4 => //; exact: kept_trans K3 k4.
- by move=> ->.
case=> st4 [-> <- k4 a4 c4] {q4}; have K4 := kept_trans K3 (kept_trans k4 (kept_ante i st4 fs)).
rewrite /act; set st5 := change i (set_ante fs) st4 in K4 *.
have V5 : view i st5 = view i st4 by rewrite /view /= eqxx.
have A5 : cante (heap st5 i) = fs by rewrite /= eqxx.
rewrite -V5; have := on_spec i (p_side A n (chars "succedent")) st5 r4.
case: (p_side _ _ _ _ _) => [gs r5 q5|q5|e] /=; last 2 first.
- by case=> st6 -> k6; exists st6 => //; exact: kept_trans K4 k6.
- by move=> ->.
case=> st6 [-> <- k6 a6 c6] {q5}; have K6 := kept_trans K4 (kept_trans k6 (kept_succ i st6 gs)).
set st7 := change i (set_succ gs) st6 in K6 *.
have V7 : view i st7 = view i st6 by rewrite /view /= eqxx.
have A7 : cante (heap st7 i) = fs by rewrite /= eqxx /= a6 A5.
have C7 : csucc (heap st7 i) = gs by rewrite /= eqxx.
rewrite -V7; have := on_spec i p_rpar st7 r5.
case: (p_rpar _ _) => [u6 r6 q6|q6|e] /=; last 2 first.
- by case=> st8 -> k8; exists st8 => //; exact: kept_trans K6 k8.
- by move=> ->.
case=> st8 [-> <- k8 a8 c8] {q6}; exists st8; split=> //; first exact: kept_trans K6 k8.
- by rewrite a8.
- by rewrite c8.
Qed.

Lemma s_cmd_yes i st s name r st' : s_cmd A i st s = Yes name r st' ->
  exists h, [/\ p_cmd A (view i st) s = Yes h r (view i st'), name = hp_name h, kept i st st',
    cante (heap st' i) = hp_ante h & csucc (heap st' i) = hp_succ h].
Proof.
have := s_cmdE i st s; case: (p_cmd _ _ _) => [h r' q|q|e].
- by case=> st1 [-> <- k a b] [<- <- <-]; exists h.
- by case=> st1 ->.
- by move=> ->.
Qed.
Lemma s_cmd_no i st s st' : s_cmd A i st s = No st' -> kept i st st'.
Proof.
have := s_cmdE i st s; case: (p_cmd _ _ _) => [h r' q|q|e].
- by case=> st1 [->].
- by case=> st1 -> k [<-].
- by move=> ->.
Qed.

Lemma s_cmd_blank i st s : blank s -> exists2 st', s_cmd A i st s = No st' & heap st' =1 heap st.
Proof.
move=> hs; rewrite /s_cmd /sq /on (_ : p_lpar _ s = No (view i st)).
  by eexists=> // j /=; case: eqP => // ->; case: (heap st i).
by apply: p_lpar_no; rewrite skip_all.
Qed.

(** ** The commands *)
Variable grf : W -> context -> W * context * option exn.

Lemma s_cmds_kept k i b w st s w' st' x : i != b -> s_cmds A grf k i b w st s = (w', st', x) ->
  [/\ cset (heap st' i) = cset (heap st i), cseq (heap st' i) = cseq (heap st i),
      chide (heap st' i) = chide (heap st i) & forall j, j != i -> j != b -> heap st' j = heap st j].
Proof.
move=> ib; elim: k w st s => [|k IH] w st s /=; first by case=> _ <- _.
case E : (s_cmd A i st s) => [name r st1|st1|e].
- have [h [_ _ [k1 k2 k3 k4] _ _]] := s_cmd_yes E.
  case: (grf _ _) => [[w1 c1] y]; set st2 := change b _ st1.
  have E2 : [/\ cset (heap st2 i) = cset (heap st i), cseq (heap st2 i) = cseq (heap st i),
      chide (heap st2 i) = chide (heap st i) & forall j, j != i -> j != b -> heap st2 j = heap st j].
    rewrite /= (negbTE ib) k1 k2 k3; split=> // j ji jb; by rewrite (negbTE jb) k4.
  have stop : (w1, st2) = (w', st') -> [/\ cset (heap st' i) = cset (heap st i), cseq (heap st' i) = cseq (heap st i),
      chide (heap st' i) = chide (heap st i) & forall j, j != i -> j != b -> heap st' j = heap st j] by case=> _ <-.
  case: y => [e|]; first by case: e => [||||||m|] [E1 E3 _]; apply: stop; rewrite E1 E3.
  move=> /IH [b1 b2 b3 b4]; case: E2 => a1 a2 a3 a4; rewrite b1 b2 b3; split=> // j ji jb.
  by rewrite b4 // a4.
- by have [k1 k2 k3 k4] := s_cmd_no E => -[_ <- _]; split=> // j /k4.
- by case=> _ <- _.
Qed.

Lemma s_cmds_end k i b w st s : blank s ->
  exists2 st', s_cmds A grf k.+1 i b w st s = (w, st', Ok s) & heap st' =1 heap st.
Proof. by move=> /(s_cmd_blank i st)[st' /= ->]; exists st'. Qed.

Definition finished (x : W * store * res text) : W * store * option exn :=
  let: (w', st', r) := x in
  (w', st', match r with
            | Ok rest => if skip rest is [::] then None else Some (Exc "ParseException")
            | Err e => Some e
            end).

Lemma parse_allE i b w st s : parse_all A grf i b w st s = finished (s_cmds A grf (size s).+1 i b w st s).
Proof. by rewrite /parse_all; case: (s_cmds _ _ _ _ _ _ _ _) => [[]]. Qed.

Lemma parse_blank i b w st s : blank s ->
  exists2 st', parse_all A grf i b w st s = (w, st', None) & heap st' =1 heap st.
Proof.
move=> hs; have [st' E h] := s_cmds_end (size s) i b w st hs; exists st' => //.
by rewrite parse_allE E /= skip_all.
Qed.

(** Nothing is read when the context of the action has no formula. *)
Lemma parse_stuck i b w st s w' st' : i != b -> needs_succedent grf -> csucc (heap st b) = [::] ->
  parse_all A grf i b w st s = (w', st', None) -> blank s.
Proof.
move=> ib N Eb; rewrite parse_allE /=.
case E : (s_cmd A i st s) => [name r st1|st1|e] //=.
- have [h [_ _ [_ _ _ k4] _ _]] := s_cmd_yes E.
  have := N w (set_seq name (heap st1 b)); rewrite /= k4 1?eq_sym // => /(_ Eb).
  case: (grf _ _) => [[w1 c1] y] /= -> /=; by case: (skip s) (@skip_nil s) => // /(_ erefl).
- by case: (skip s) (@skip_nil s) => // /(_ erefl).
Qed.

(** A file of sequents, when the action belongs to another context. *)
Lemma s_cmds_rerun (K : realFieldType) (val : P L -> (var -> K) -> K) qs s : arith_ok val A -> problems_text qs s ->
  ~~ has problem_divides qs \/ (forall p p' e, a_div A p p' <> Err e) ->
  forall k (i b : nat) w st, i != b -> (size s < k)%N -> good_ctx (cnames (heap st i)) ->
  let x := rerun grf (map pb_name qs) w (heap st b) in
  exists st', finished (s_cmds A grf k i b w st s) =
    (x.1.1, st', match x.2 with Some IndexError => Some (Exc "ParseException") | _ => x.2 end) /\
    heap st' b = x.1.2.
Proof.
move=> AO; elim=> {qs s} [s hs _|q s qs s' hq hqs IH hd] [|k] i b w st ib // hk G.
  have [st' E h] := s_cmds_end k i b w st hs; exists st'; rewrite E /= skip_all //; by split.
have [E [B Re]] := p_cmd_ok A hq; have Gv : good_ctx (names (view i st)) := G.
have hd' : ~~ has problem_divides qs \/ (forall p p' e, a_div A p p' <> Err e).
  by case: hd => [|h]; [rewrite /= negb_or => /andP[_ ->]; left|right].
have := s_cmdE i st (s ++ s'); rewrite (Re (view i st) s' Gv isT) /=.
case Es : (E _) => [[q1 h]|e]; last first.
  have [D [p [r Er]]] := q_err B Gv Es.
  by case: hd => [/=|/(_ _ _ _ Er)//]; rewrite D.
have [G1 _ N1 _ _] := q_ok B Gv Es.
case=> st1 [-> V1 [_ _ _ k4] _ _]; rewrite N1 /= k4 1?eq_sym //.
case: (grf _ _) => [[w1 c1] y]; set st2 := change b _ st1.
have H2 : heap st2 b = c1 by rewrite /= eqxx.
case: y => [e|].
  by exists st2; case: e => [||||||m|] //=; have [c0 [s0 ->]] := problem_skip s' hq.
have G2 : good_ctx (cnames (heap st2 i)) by rewrite /= (negbTE ib); move: G1; rewrite -V1.
have [] := IH hd' k i b w1 st2 ib _ G2; last by rewrite H2 => st' H; exists st'.
by move: hk; rewrite size_cat; have := problem_size hq; lia.
Qed.

(** ** Calls *)

(** A call with a context that is not the context of the action. *)
Theorem given_keeps (c : nat) p w st s p' w' st' x : c != action_context p ->
  process A grf (Some c) p w st s = (p', w', st', x) ->
  [/\ cset (heap st' c) = cset (heap st c), cseq (heap st' c) = cseq (heap st c),
      chide (heap st' c) = chide (heap st c) &
      forall j, j != c -> j != action_context p -> heap st' j = heap st j].
Proof.
move=> ca; rewrite /process /= parse_allE /finished.
case E : (s_cmds _ _ _ _ _ _ _ _) => [[w1 st1] r1].
by case: (match r1 with Ok _ => _ | Err _ => _ end) => [e|] [_ _ <- _]; exact: s_cmds_kept E.
Qed.

Theorem given_parser c p w st s :
  let: (p', w', st', x) := process A grf (Some c) p w st s in
  action_context p' = action_context p /\
  match x with
  | Ok r => r = c /\ self_context p' = self_context p
  | Err e => self_context p' = c
  end.
Proof. by rewrite /process /=; case: (parse_all _ _ _ _ _ _ _) => [[w1 st1] [e|]]. Qed.

Theorem own_parser p w st s :
  let: (p', w', st', x) := process A grf None p w st s in
  p' = p /\ if x is Ok r then r = self_context p else Logic.True.
Proof. by rewrite /process /=; case: (parse_all _ _ _ _ _ _ _) => [[w1 st1] [e|]]. Qed.

Theorem given_new (c : nat) p w st s : c != action_context p -> needs_succedent grf ->
  csucc (heap st (action_context p)) = [::] ->
  (exists r : nat, (process A grf (Some c) p w st s).2 = Ok r) <-> blank s.
Proof.
move=> ca N E; rewrite /process /=; split=> [|hs].
  case Ep : (parse_all _ _ _ _ _ _ _) => [[w1 st1] [e|]] /= [r //].
  by move=> _; exact: parse_stuck Ep.
by have [st' -> _] := parse_blank c (action_context p) w st hs; exists c.
Qed.

Theorem given_blank (c : nat) p w st s : blank s -> exists2 st',
  process A grf (Some c) p w st s = (p, w, st', Ok c) & heap st' =1 heap st.
Proof.
move=> hs; rewrite /process /=; have [st' -> h] := parse_blank c (action_context p) w st hs.
by exists st' => //; case: p.
Qed.

Theorem given_rerun (K : realFieldType) (val : P L -> (var -> K) -> K) qs s (c : nat) p w st :
  arith_ok val A -> problems_text qs s ->
  ~~ has problem_divides qs \/ (forall p p' e, a_div A p p' <> Err e) ->
  c != action_context p -> good_ctx (cnames (heap st c)) ->
  let x := rerun grf (map pb_name qs) w (heap st (action_context p)) in
  let: (p', w', st', y) := process A grf (Some c) p w st s in
  [/\ w' = x.1.1, heap st' (action_context p) = x.1.2 & y = outcome c x.2].
Proof.
move=> AO hs hd ca G; have [st' [E1 E2]] := s_cmds_rerun AO hs hd w ca (ltnSn _) G.
rewrite /process /= parse_allE E1.
by case: (rerun _ _ _ _).2 => [[]|] *; rewrite /outcome; split.
Qed.

Theorem cleared_rerun (K : realFieldType) (val : P L -> (var -> K) -> K) qs s o (n : nat) p0 st0 w :
  arith_ok val A -> problems_text qs s ->
  ~~ has problem_divides qs \/ (forall p p' e, a_div A p p' <> Err e) ->
  n != action_context p0 ->
  let x := rerun grf (map pb_name qs) w (heap st0 (action_context p0)) in
  let: (p, st) := clear_context o n p0 st0 in
  let: (p', w', st', y) := process A grf None p w st s in
  [/\ w' = x.1.1, heap st' (action_context p0) = x.1.2 & y = outcome n x.2].
Proof.
move=> AO hs hd ca; rewrite /clear_context /process /=.
set st := change n _ st0; have G : good_ctx (cnames (heap st n)) by rewrite /= eqxx; exact: new_good.
have [st' [E1 E2]] := s_cmds_rerun AO hs hd w ca (ltnSn _) G.
have Eh : heap st (action_context p0) = heap st0 (action_context p0) by rewrite /= eq_sym (negbTE ca).
rewrite Eh in E1 E2; rewrite parse_allE E1.
by case: (rerun _ _ _ _).2 => [[]|] *; rewrite /outcome; split.
Qed.

Theorem cleared_nothing o (n : nat) p0 st0 w s p w' st' y : n != action_context p0 ->
  (let: (p, st) := clear_context o n p0 st0 in process A grf None p w st s) = (p, w', st', y) ->
  [/\ chide (heap st' n) = None, cseq (heap st' n) = [::] & cset (heap st' n) = o].
Proof.
move=> ca; rewrite /clear_context /process /= parse_allE /finished.
case E : (s_cmds _ _ _ _ _ _ _ _) => [[w1 st1] r1] [_ _ <- _].
by have [-> -> -> _] := s_cmds_kept ca E; rewrite /= eqxx.
Qed.
End Facts.

(** ** Agreement with the parser that has one context *)
Section Agree.
Variables (R : realDomainType) (L : lib R) (A : arith (P L)) (settings W : Type).
Variable perform : W -> nat -> seq (atom L) -> seq (atom L) -> res (W * (seq nat * seq nat)).
Local Notation context := (context L settings).
Local Notation store := (store L settings).
Local Notation grf := (@grf_of R L settings W perform).

Lemma p_cmd_skip st s h r q : p_cmd A st s = Yes h r q -> ~~ nilp (skip s).
Proof.
case E : (skip s) => [|c s'] //; rewrite /p_cmd.
by rewrite (sq_no _ (p_lpar_no _ _)) // E.
Qed.

Lemma s_cmds_agree k b w (st : store) s :
  match p_cmds A perform k w (reported (heap st b)) (view b st) s with
  | Ok (last, rest) => exists w' st', s_cmds A grf k b b w st s = (w', st', Ok rest) /\
      (~~ nilp (skip rest) \/ last = reported (heap st' b))
  | Err e => exists w' st', s_cmds A grf k b b w st s = (w', st', Err e)
  end.
Proof.
elim: k w st s => [|k IH] w st s /=; first by exists w, st.
have := s_cmdE A b st s; case Ec : (p_cmd _ _ _) => [h r q|q|e].
- case=> st1 [-> Vq [k1 k2 k3 k4] Ea Es]; rewrite /grf_of.
  rewrite -[cnames (set_seq _ _)]/(cnames (heap st1 b)) -[cante (set_seq _ _)]/(cante (heap st1 b)).
  rewrite -[csucc (set_seq _ _)]/(csucc (heap st1 b)) Ea Es.
  rewrite -[cnames (heap st1 b)]/(names (view b st1)) Vq.
  case: (perform _ _ _ _) => [[w1 x]|e].
  + pose st2 := change b (fun=> Context (cset (heap st1 b)) (names q) (hp_ante h) (hp_succ h) (hp_name h) (Some x)) st1.
    have Eq : q = view b st2 by rewrite /view /= eqxx -[next st1]/(fresh (view b st1)) Vq; case: (q).
    have Er : Some (hp_name h, x) = reported (heap st2 b) by rewrite /reported /= eqxx.
    by have := IH w1 st2 r; rewrite -Eq -Er.
  + case: e; try by do 2!eexists.
    by do 2!eexists; split; first by []; left; exact: p_cmd_skip Ec.
- case=> st1 -> [k1 k2 k3 k4]; exists w, st1; split=> //; right.
  by rewrite /reported k3 k2.
- by move=> ->; exists w, st.
Qed.

(** A new parser without a context. *)
Theorem new_agrees o n w (st : store) s : next st = 0 ->
  let: (p, st1) := new_parser None o n st in
  let: (p', w', st', y) := process A grf None p w st1 s in
  process_commands A perform w s =
    match y with Ok c => Ok (reported (heap st' c)) | Err e => Err e end.
Proof.
move=> E0; rewrite /new_parser /process /= parse_allE /finished /process_commands.
set st1 := change n _ st; have := s_cmds_agree (size s).+1 n w st1 s.
have -> : reported (heap st1 n) = None by rewrite /reported /= eqxx.
have -> : view n st1 = Pst (new_ctx sname) 0 by rewrite /view /= eqxx E0.
case: (p_cmds _ _ _ _ _ _ _) => [[last rest]|e] [w' [st' H]]; last by rewrite H.
by case: H => -> /=; case: (skip rest) => [|c r] // [//|->].
Qed.
End Agree.
