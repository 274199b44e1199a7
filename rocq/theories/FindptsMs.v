(** Model of the search with several sessions: findptsms on data set up by findptsms_setup
    (src/findpts_imp.h).  The search itself is [findpts_search]; here the merge of the remote
    results for ims=1.  Simplifications: as in Findpts.v; in particular disti is a finite
    double, so it is never below -DBL_MAX. *)
From Verif Require Import Base Sort Sarray Net NetWords Comm Crystal Transfer GsTop Findpts FindptsGlobal.
From Coq Require Import QArith Qround.
Open Scope nat_scope.

Section Ms.
Variable F : doubles.
Notation dbl := (dbl F).
Notation result := (result F).
Variable rnd : Q -> Q.
Variable usize lsize INT_MAX np me : nat.
Variable dzero : dbl.
Variable D : nat.

(** The variables of the merge loop (findpts_imp.h:413-423): oldindex, oldelsid, istart,
    ioriginator; asdisti,...,asr as one result (winner of all sessions); csdisti,...,csr as
    another (winner of the current session). *)
Record ms_state := MS {
  oldindex : nat; oldelsid : nat; istart : bool; ioriginator : bool; as_ : result; cs : result }.

(** asdisti = -DBL_MAX. *)
Definition lowest_disti (o : result) : result :=
  Res F (code F o) (proc F o) (el F o) (r F o) (dist2 F o) (dbl_lowest F) (elsid F o).

(** Lines 438-447: initialisation for each point; [o] the user's result of the point. *)
Definition ms_new_point (first : bool) (index : nat) (o : result) (s : ms_state) : ms_state :=
  if negb (index =? oldindex s) || first then
    MS index 0 false (negb (code F o =? NOT_FOUND)) (lowest_disti (as_ s)) (cs s)
  else s.
(** Lines 448-464: initialisation for each session. *)
Definition ms_new_session (opt o : result) (s : ms_state) : ms_state :=
  if negb (elsid F opt =? oldelsid s) || negb (istart s) then
    if ioriginator s && (elsid F o =? elsid F opt) then
      MS (oldindex s) (elsid F opt) true false (as_ s) o
    else MS (oldindex s) (elsid F opt) true (ioriginator s) (as_ s) (set_code F NOT_FOUND (cs s))
  else s.
(** Lines 466-478: the winner of the session, so far. *)
Definition ms_pick (cs opt : result) : result :=
  if negb (code F cs =? INTERNAL) &&
     ((code F cs =? NOT_FOUND) || (code F opt =? INTERNAL) || dlt F (dist2 F opt) (dist2 F cs))
  then opt else cs.
(** csdisti >= asdisti (line 481). *)
Definition ms_over (as_ cs : result) : result :=
  if negb (dlt F (disti F cs) (disti F as_)) then cs else as_.

(** One turn of the loop (findpts_imp.h:425-501): the new variables, and what is stored for the
    point, if anything.  [next] is the entry behind, None at the end (n==1). *)
Definition ms_step (first : bool) (index : nat) (opt : result) (next : option (nat * result)) (o : result)
    (s : ms_state) : ms_state * option result :=
  let nextindex := match next with Some (i, _) => i | None => index end in
  let nextelsid := match next with Some (_, x) => elsid F x | None => elsid F opt end in
  let last := match next with Some _ => false | None => true end in
  let s := ms_new_session opt o (ms_new_point first index o s) in
  let s := MS (oldindex s) (oldelsid s) (istart s) (ioriginator s) (as_ s) (ms_pick (cs s) opt) in
  if last || negb (elsid F opt =? nextelsid) || negb (index =? nextindex) then
    let s := MS (oldindex s) (oldelsid s) (istart s) (ioriginator s) (ms_over (as_ s) (cs s)) (cs s) in
    if negb (index =? nextindex) || last then
      (s, if negb (ioriginator s && dlt F (disti F (as_ s)) (disti F o)) then Some (as_ s) else None)
    else (s, None)
  else (s, None).

(** The loop. *)
Fixpoint ms_loop (first : bool) (out : list (nat * result)) (s : ms_state) (st : list result) : res (list result) :=
  match out with
  | [] => Ok st
  | (index, opt) :: out' =>
      o <- rd st index ;;
      let '(s, w) := ms_step first index opt (match out' with x :: _ => Some x | [] => None end) o s in
      st <- (match w with Some o' => wr st index o' | None => Ok st end) ;;
      ms_loop false out' s st
  end.
(** The merge for ims=1 (findpts_imp.h:411-502).  The variables as.., cs.. are not initialised
    in the code; here they contain zeros. *)
Definition merge_ms (out : list (nat * result)) (st : list result) : res (list result) :=
  out <- sort_by usize lsize [KU fst; KU (fun x => elsid F (snd x))] out ;;
  let z := Res F 0 0 0 (repeat dzero D) dzero dzero 0 in
  ms_loop true out (MS 0 0 false false z z) st.

(** findptsms (findpts_imp.h:271-526); [st] the user's arrays, with distv and elsidv allocated
    by the function (uninitialised: any contents). *)
Definition findptsms (fd : findpts_data F) (sessm : nat) (pts : list (point F)) (st : list result)
    : prog (list byte) (list result * findpts_data F) :=
  pbind (findpts_search F rnd usize lsize INT_MAX np me dzero D fd sessm pts st) (fun '(st, out) =>
  pbind (plift (if ims F (local F fd) then merge_ms out st else merge F out st)) (fun st =>
  Ret (st, FD F (local F fd) (hash F fd) None))).
End Ms.
