(** Model of the atoms of GRF/grf.sage as objects that are changed in place.
    Line numbers of grf.sage are marked [g].  GrfModel.v has atoms as values. *)
From mathcomp Require Import all_ssreflect all_algebra.
From Coq Require Import String.
From Verif Require Import Py GrfModel.

Set Implicit Arguments.
Unset Strict Implicit.
Unset Printing Implicit Defensive.
Import GRing.Theory Num.Theory Order.Theory.
Local Open Scope ring_scope.

Section Heap.
Variables (R : realDomainType) (L : lib R) (O : oracle L).
Variable solve : nat -> seq constraint -> seq nat -> res (nat -> bool).
Local Notation poly := (P L).
Local Notation asg := (dict [eqType of var] R).
Variable sample : addr -> option (goal L) -> seq poly -> seq (atom L) -> res (seq asg * seq poly).

(** References to atoms, and what they refer to.  A reference that a program
    holds always refers to an object. *)
Definition ref := nat.
Definition heap := ref -> atom L.
Definition upd (m : heap) (r : ref) (a : atom L) : heap := fun r' => if r' == r then a else m r'.

(** RCF_Goal (g 148-153) and RCF_GD_Decide (g 752-760). *)
Record hgoal := HGoal { hmain : ref; hghyps : seq ref; hgb : seq poly }.
Record hdecide := HDecide { hhyps : seq ref; hdgoal : hgoal; horder : seq var }.

(** What the attributes show at the moment. *)
Definition view_goal (m : heap) (g : hgoal) : goal L := Goal (m (hmain g)) (map m (hghyps g)) (hgb g).
Definition view (m : heap) (s : hdecide) : decide L := Decide (map m (hhyps s)) (view_goal m (hdgoal s)) (horder s).

(** quotient_ring_inject (g 69-77) *)
Definition h_inject (B : seq poly) (m : heap) (r : ref) : res heap :=
  let! a := inject B (m r) in Ok (upd m r a).

(** add_goal_hyp with use_gbs=True (g 194-212). *)
Definition h_add_goal_hyp (m : heap) (g : hgoal) (gh : ref) : res (heap * hgoal) :=
  let! mB :=
    (if aop (m gh) is REq then
       let B := groebner_basis [:: apoly (m gh)] in
       let! m1 := foldM (h_inject B) m (hghyps g) in
       Ok (m1, groebner_basis (hgb g ++ [:: apoly (m1 gh)]))
     else Ok (m, hgb g)) in
  let! m2 := (if hgb g is [::] then Ok mB.1 else h_inject (hgb g) mB.1 gh) in
  Ok (m2, HGoal (hmain g) (hghyps g ++ [:: gh]) mB.2).

(** promote_right (g 828-832) *)
Definition h_promote (m : heap) (s : hdecide) (i : nat) : res (heap * hdecide) :=
  let! r := pyget (hhyps s) i in
  let! mg := h_add_goal_hyp m (hdgoal s) r in
  Ok (mg.1, HDecide (take i (hhyps s) ++ drop i.+1 (hhyps s)) mg.2 (horder s)).

(** The dialogue (g 981-1019) and the automatic choice (g 1021-1032). *)
Fixpoint h_interact (m : heap) (s : hdecide) (bads : seq (seq nat)) (cs : seq command) :
    res (heap * hdecide * bool * seq command) :=
  match cs with
  | [::] => Err EOFError
  | c :: cs' =>
      match c with
      | Suggest => let! _ := good_hyps solve (view m s) bads in h_interact m s bads cs'
      | ShowBads | ShowSequent | Other => h_interact m s bads cs'
      | Go =>
          let! cand := good_hyps solve (view m s) bads in
          let! i := pyget (sort_cand (view m s) cand) 0 in
          let! ms := h_promote m s i in
          Ok (ms, false, cs')
      | Promote i =>
          if (0 <= i) && (i < (size (hhyps s))%:Z)
          then let! ms := h_promote m s `|i|%N in Ok (ms, true, cs')
          else h_interact m s bads cs'
      end
  end.
Definition h_auto (m : heap) (s : hdecide) (bads : seq (seq nat)) : res (heap * hdecide) :=
  let! cand := good_hyps solve (view m s) bads in
  let! i := pyget (if (1 < size cand)%N then sort_cand (view m s) cand else cand) 0 in
  h_promote m s i.

(** check (g 947-1035).  Sampling and evaluating only read the atoms. *)
Fixpoint h_check (fuel : nat) (partial : bool) (k : nat) (epsilon : R) (cs : option (seq command))
    (top : seq poly) (m : heap) (s : hdecide) : res (seq (seq nat) * (heap * hdecide)) :=
  if fuel is fuel'.+1 then
    let top' := top ++ apoly (m (hmain (hdgoal s))) :: [seq apoly (m h) | h <- hghyps (hdgoal s)] in
    let! sp := sample [:: fuel; 0%N] (if partial then Some (view_goal m (hdgoal s)) else None) top' (map m (hhyps s)) in
    let! ob := all_bads O [:: fuel; 1%N] 0 (view m s) sp.1 k epsilon in
    let s1 := HDecide (hhyps s) (hdgoal s) ob.1 in
    match ob.2 with
    | None => Ok ([::], (m, s1))
    | Some bads =>
        match cs with
        | Some l =>
            let! r := h_interact m s1 bads l in
            let: (ms, inter, l') := r in
            let! f := h_check fuel' partial k epsilon (if inter then Some l' else None) sp.2 ms.1 ms.2 in
            Ok (bads, f.2)
        | None =>
            let! ms := h_auto m s1 bads in
            let! f := h_check fuel' partial k epsilon None sp.2 ms.1 ms.2 in
            Ok (bads, f.2)
        end
    end
  else Err OutOfFuel.

(** A program that makes one object with hypotheses and a goal and checks it
    (g 753-788, 947). *)
Definition h_new (hs : seq ref) (g : ref) (order : seq var) : hdecide := HDecide hs (HGoal g [::] [::]) order.

(** ** Specification *)
(** No atom object is used twice in the sequent. *)
Definition distinct (s : hdecide) : bool := uniq (hmain (hdgoal s) :: hghyps (hdgoal s) ++ hhyps s).
End Heap.
