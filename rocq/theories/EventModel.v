(** Model of the event loop of src/jsiCmds.c: setTimeout, setInterval, clearInterval, update,
    Jsi_EventNew, Jsi_EventProcess; and jsi_AddEventHandler of src/jsiInterp.c.

    The event table is the hash table of HashModel (word keys), with the event stored in its
    entry: an event is freed exactly when its entry is, so the pointer evPtr is the address of
    the entry.  [Crash] is a use after free (or a crash of the hash table); [Fuel] means only
    that the fuel given was too small.

    What a callback does is arbitrary: the n-th call of a callback performs the n-th list of
    actions of [script].  Simplifications: the clock is a number of milliseconds that only
    [ATick] changes; no signal events; callbacks do not delete the interpreter or call exit; an
    error in a callback is the end of its list of actions; no parent interpreter; the id
    counter (64 bits) and times (long) do not overflow. *)
From Coq Require Import ZArith List Bool.
Import ListNotations.
From Verif Require Import TreeModel HashModel LimitModel.
Local Open Scope Z_scope.

(** JSI_EVENT_TIMER, JSI_EVENT_ALWAYS, jsi.h *)
Inductive evkind := KTimer | KAlways.

(** Jsi_Event, jsi.h:1292-1306; the id is the key of the entry. *)
Record event := mkEv {
  ekind : evkind; eonce : bool; einitial : Z; ewsec : Z; ewms : Z; ebusy : bool; ecount : Z }.

(** What a script or its host does; the times are in milliseconds. *)
Inductive action :=
| ATick (d : Z)                         (* the clock moves by d *)
| ASet (ms : Z) (once : bool)           (* setTimeout(f, ms) / setInterval(f, ms) *)
| AClear (id : Z)                       (* clearInterval(id) *)
| AHandler                              (* jsi_AddEventHandler *)
| ANew                                  (* Jsi_EventNew *)
| AProcess (maxEvents : Z)              (* Jsi_EventProcess *)
| AUpdate (minTime : Z) (sleeps : list Z).
    (* update(minTime): one sleep lasts as long as the next element; the loop ends (maxPasses)
       when there is none *)

(** What can be observed, latest first. *)
Inductive obs :=
| OSet (id ms : Z) (once : bool) (t : Z)   (* a timer was created at time t, and its id returned *)
| ONew (id : Z)                            (* a C event was created *)
| OClear (id : Z)                          (* clearInterval(id) succeeded *)
| OPass (n t : Z)                          (* event pass n started at time t *)
| ORun (id n t : Z)                        (* callback of id called in pass n, started at t *)
| OTimeUp (start minTime t : Z).           (* update(minTime), called at start, found at t that
                                              the time had passed, and returned *)

Notation etable := (table Z event).
Notation eentry := (hentry Z event).

Record st := mkSt {
  tbl : etable; evIdx : Z; hdlId : Z; now : Z; script : list (list action);
  passes : Z; log : list obs }.

Definition st0 (t0 : Z) (sc : list (list action)) : st := mkSt hash_new 0 0 t0 sc 0 [].

Inductive res (A : Type) := Ok (a : A) | Crash | Fuel.
Arguments Ok {A}. Arguments Crash {A}. Arguments Fuel {A}.
Definition rbind {A B} (r : res A) (f : A -> res B) : res B :=
  match r with Ok a => f a | Crash => Crash | Fuel => Fuel end.
Definition of_opt {A} (o : option A) : res A := match o with Some a => Ok a | None => Crash end.

Definition with_tbl (t : etable) (s : st) : st :=
  mkSt t (evIdx s) (hdlId s) (now s) (script s) (passes s) (log s).
Definition logging (o : obs) (s : st) : st :=
  mkSt (tbl s) (evIdx s) (hdlId s) (now s) (script s) (passes s) (o :: log s).

(** jsiGetTime, jsiCmds.c:196-203 *)
Definition sec (t : Z) : Z := t / 1000.
Definition msec (t : Z) : Z := t mod 1000.

(** The event at the address of an entry; [None]: freed. *)
Definition at_ptr (p : nat) (s : st) : option eentry :=
  find (fun e => Nat.eqb (hptr e) p) (concat (buckets (tbl s))).
Definition set_event (p : nat) (ev : event) (s : st) : st :=
  with_tbl (value_set p (Some ev) (tbl s)) s.

(** The loop that looks for an unused id: jsiCmds.c:222-227 and 459-463, jsiInterp.c:2453-2458 *)
Fixpoint fresh_entry (fuel : nat) (s : st) : res (eentry * st) :=
  match fuel with
  | O => Fuel
  | S f =>
      let id := evIdx s + 1 in
      rbind (of_opt (hash_entry_new oneword_kind id (tbl s))) (fun '(e, isNew, t) =>
      let s' := mkSt t id (hdlId s) (now s) (script s) (passes s) (log s) in
      if isNew then Ok (e, s') else fresh_entry f s')
  end.

(** when_sec and when_ms for ms milliseconds after cur: jsiCmds.c:473-478, and 313-318 *)
Definition due_at (cur ms : Z) : Z * Z :=
  let ws := sec cur + ms / 1000 in
  let wm := msec cur + ms mod 1000 in
  if 1000 <=? wm then (ws + 1, wm - 1000) else (ws, wm).

(** intervalTimer, jsiCmds.c:441-487 *)
Definition interval_timer (fuel : nat) (milli : Z) (once : bool) (s : st) : res st :=
  let ms := if milli <? 0 then 0 else milli in
  rbind (fresh_entry fuel s) (fun '(e, s1) =>
  let '(ws, wm) := due_at (now s1) ms in
  let ev := mkEv KTimer once ms ws wm false 0 in
  Ok (logging (OSet (hkey e) milli once (now s1)) (set_event (hptr e) ev s1))).

(** Jsi_EventNew, jsiCmds.c:218-237 *)
Definition event_new (fuel : nat) (s : st) : res st :=
  rbind (fresh_entry fuel s) (fun '(e, s1) =>
  Ok (logging (ONew (hkey e)) (set_event (hptr e) (mkEv KTimer false 0 0 0 false 0) s1))).

(** jsi_AddEventHandler, jsiInterp.c:2450-2468 *)
Definition add_handler (fuel : nat) (s : st) : res st :=
  if negb (hdlId s =? 0) then Ok s else
  rbind (fresh_entry fuel s) (fun '(e, s1) =>
  let s2 := set_event (hptr e) (mkEv KAlways false 0 0 0 false 0) s1 in
  Ok (logging (ONew (hkey e))
        (mkSt (tbl s2) (evIdx s2) (hkey e) (now s2) (script s2) (passes s2) (log s2)))).

(** clearIntervalCmd, jsiCmds.c:495-512; an error changes nothing.  Jsi_HashEntryDelete frees
    the event through freeEventTbl, jsiInterp.c:564-572. *)
Definition clear_interval (nid : Z) (s : st) : res st :=
  let id := nid mod 2 ^ 64 in
  if negb (hdlId s =? 0) && (id =? hdlId s) then Ok s else
  match hash_find oneword_kind id (tbl s) with
  | None => Ok s
  | Some e =>
      rbind (of_opt (entry_delete oneword_kind e (tbl s))) (fun t =>
      Ok (logging (OClear id) (with_tbl t s)))
  end.

(** Jsi_EventFree, jsiCmds.c:205-215 *)
Definition event_free (e : eentry) (s : st) : res st :=
  let t1 := value_set (hptr e) None (tbl s) in
  rbind (of_opt (entry_delete oneword_kind e t1)) (fun t => Ok (with_tbl t s)).

(** The test of jsiCmds.c:272-275: is the timer skipped? *)
Definition not_due (cur : Z) (ev : event) : bool :=
  (sec cur <=? ewsec ev) && (negb (sec cur =? ewsec ev) || (msec cur <? ewms ev)) &&
  (negb (ewsec ev =? 0) && negb (ewms ev =? 0)).

(** The elapsed time computed by update, jsiCmds.c:424-427 *)
Definition diftime (start cur : Z) : Z :=
  if sec cur =? sec start then msec cur - msec start
  else (sec cur - sec start) * 1000 + msec cur + (1000 - msec start).

Definition next_acts (s : st) : list action * st :=
  match script s with
  | [] => ([], s)
  | a :: r => (a, mkSt (tbl s) (evIdx s) (hdlId s) (now s) r (passes s) (log s))
  end.

(** evPtr->count++ (a uint) *)
Definition counted (ev : event) : event :=
  mkEv (ekind ev) (eonce ev) (einitial ev) (ewsec ev) (ewms ev) (ebusy ev) ((ecount ev + 1) mod 2 ^ 32).
Definition with_busy (b : bool) (ev : event) : event :=
  mkEv (ekind ev) (eonce ev) (einitial ev) (ewsec ev) (ewms ev) b (ecount ev).
Definition with_due (d : Z * Z) (ev : event) : event :=
  mkEv (ekind ev) (eonce ev) (einitial ev) (fst d) (snd d) (ebusy ev) (ecount ev).

(** After the callback: jsiCmds.c:298-319.  evPtr is used again: a crash if it was freed. *)
Definition after_call (cur : Z) (p : nat) (s : st) : res st :=
  match at_ptr p s with
  | Some e =>
      match hdata e with
      | Some ev =>
          let ev1 := with_busy false ev in
          let s1 := set_event p ev1 s in
          if eonce ev1 then event_free e s1
          else Ok (set_event p (with_due (due_at cur (einitial ev1)) ev1) s1)
      | None => Crash
      end
  | None => Crash
  end.

(** Jsi_EventProcess, jsiCmds.c:240-338: [walk] is its loop, at the search position [hs], for a
    pass number [n] started at time [cur] with newIdx [newIdx]; [run_acts] performs actions. *)
Fixpoint walk (fuel : nat) (maxEvents cur newIdx n cnt : Z) (hs : hsearch) (s : st)
  : res (Z * st) :=
  match fuel with
  | O => Fuel
  | S f =>
      match hash_next (tbl s) hs with
      | HEnd => Ok (cnt, s)
      | HCrash => Crash
      | HEntry e hs' =>
          match hdata e with
          | None => walk f maxEvents cur newIdx n cnt hs' s
          | Some ev =>
              if newIdx <? wrap32 (hkey e) then walk f maxEvents cur newIdx n cnt hs' s
              else if match ekind ev with KTimer => not_due cur ev | KAlways => false end
              then walk f maxEvents cur newIdx n cnt hs' s
              else
                let timer := match ekind ev with KTimer => true | KAlways => false end in
                let ev1 := if timer then counted ev else ev in
                let cnt1 := if timer then cnt + 1 else cnt in
                let s1 := set_event (hptr e) ev1 s in
                if ebusy ev1 then walk f maxEvents cur newIdx n cnt1 hs' s1
                else
                  let s2 := logging (ORun (hkey e) n cur)
                              (set_event (hptr e) (with_busy true ev1) s1) in
                  let '(acts, s3) := next_acts s2 in
                  rbind (run_acts f acts s3) (fun s4 =>
                  rbind (after_call cur (hptr e) s4) (fun s5 =>
                  if (0 <=? maxEvents) && (maxEvents <=? cnt1) then Ok (cnt1, s5)
                  else walk f maxEvents cur newIdx n cnt1 hs' s5))
          end
      end
  end

(** A list of actions, as performed by a callback or by the host. *)
with run_acts (fuel : nat) (acts : list action) (s : st) : res st :=
  match fuel with
  | O => Fuel
  | S f =>
      match acts with
      | [] => Ok s
      | a :: r =>
          rbind match a with
                | ATick d => Ok (mkSt (tbl s) (evIdx s) (hdlId s) (now s + d) (script s) (passes s) (log s))
                | ASet ms once => interval_timer f ms once s
                | AClear id => clear_interval id s
                | AHandler => add_handler f s
                | ANew => event_new f s
                | AProcess m => rbind (process f m s) (fun '(_, s') => Ok s')
                | AUpdate mt sl => update f mt (now s) sl s
                end
                (fun s' => run_acts f r s')
      end
  end

(** One pass: newIdx (an int) and the time are read once, at the start (247-249). *)
with process (fuel : nat) (maxEvents : Z) (s : st) : res (Z * st) :=
  match fuel with
  | O => Fuel
  | S f =>
      let n := passes s in
      let s1 := mkSt (tbl s) (evIdx s) (hdlId s) (now s) (script s) (n + 1) (OPass n (now s) :: log s) in
      walk f maxEvents (now s) (wrap32 (evIdx s)) n 0 hash_first_state s1
  end

(** The loop of SysUpdateCmd, jsiCmds.c:410-431; maxEvents is always -1 there: the option of
    that name is read but not used. *)
with update (fuel : nat) (minTime start : Z) (sleeps : list Z) (s : st) : res st :=
  match fuel with
  | O => Fuel
  | S f =>
      rbind (process f (-1) s) (fun '(_, s1) =>
      if minTime =? 0 then Ok s1
      else if (0 <? minTime) && (minTime <=? diftime start (now s1))
      then Ok (logging (OTimeUp start minTime (now s1)) s1)
      else match sleeps with
           | [] => Ok s1
           | d :: r =>
               update f minTime start r
                 (mkSt (tbl s1) (evIdx s1) (hdlId s1) (now s1 + d) (script s1) (passes s1) (log s1))
           end)
  end.
