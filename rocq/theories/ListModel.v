(** Model of the doubly linked lists Jsi_List (src/jsiUtils.c 1476-1635, src/jsi.h 828-883).
    Memory is explicit: entries and list headers live at addresses, and touching an address that
    is not allocated, a null pointer, or a failing Assert is [None].  malloc may return any address
    that is not allocated, so the address a call obtains is a parameter of the call.
    Simplifications: the lists have no freeListProc (so the checks that two lists have the same one
    hold), signatures and options are left out, allocation never fails. *)
From Coq Require Import ZArith List Bool Lia.
Import ListNotations.
From Verif Require Import LimitModel.
Local Open Scope Z_scope.

Section L.
Variable V : Type.

(** jsi.h 838-845 *)
Record entry := mkE { nxt : option Z; prv : option Z; own : Z; val : V }.
(** jsi.h 829-835 *)
Record lst := mkL { head : option Z; tail : option Z; num : Z }.
Record heap := mkH { en : Z -> option entry; li : Z -> option lst }.

Definition set_en (a : Z) (e : option entry) (h : heap) : heap :=
  mkH (fun b => if b =? a then e else en h b) (li h).
Definition set_li (l : Z) (x : option lst) (h : heap) : heap :=
  mkH (en h) (fun b => if b =? l then x else li h b).

Local Notation "x <- a ;; b" := (match a with Some x => b | None => None end) (at level 60, a at next level, right associativity).

(** Writing one field through a pointer. *)
Definition put_nxt (a : Z) (v : option Z) (h : heap) : option heap :=
  e <- en h a ;; Some (set_en a (Some (mkE v (prv e) (own e) (val e))) h).
Definition put_prv (a : Z) (v : option Z) (h : heap) : option heap :=
  e <- en h a ;; Some (set_en a (Some (mkE (nxt e) v (own e) (val e))) h).
Definition put_own (a : Z) (v : Z) (h : heap) : option heap :=
  e <- en h a ;; Some (set_en a (Some (mkE (nxt e) (prv e) v (val e))) h).
Definition put_head (l : Z) (v : option Z) (h : heap) : option heap :=
  x <- li h l ;; Some (set_li l (Some (mkL v (tail x) (num x))) h).
Definition put_tail (l : Z) (v : option Z) (h : heap) : option heap :=
  x <- li h l ;; Some (set_li l (Some (mkL (head x) v (num x))) h).
Definition add_num (l : Z) (d : Z) (h : heap) : option heap :=
  x <- li h l ;; Some (set_li l (Some (mkL (head x) (tail x) (wrap32 (num x + d)))) h).

(** Jsi_ListNew, jsiUtils.c 1476-1486; [l] is the address calloc returns *)
Definition list_new (l : Z) (h : heap) : heap := set_li l (Some (mkL None None 0)) h.

(** Jsi_ListPop, jsiUtils.c 1553-1575 *)
Definition list_pop (l item : Z) (h : heap) : option heap :=
  x <- li h l ;; e <- en h item ;; hd <- head x ;; tl <- tail x ;;
  h1 <- (if item =? hd then
           if hd =? tl then h' <- put_tail l None h ;; put_head l None h'
           else eh <- en h hd ;; put_head l (nxt eh) h
         else if item =? tl then
           et <- en h tl ;; h' <- put_tail l (prv et) h ;;
           t' <- prv et ;; put_nxt t' None h'
         else
           p <- prv e ;; h' <- put_nxt p (nxt e) h ;;
           match nxt e with Some n => put_prv n (prv e) h' | None => Some h' end) ;;
  h2 <- add_num l (-1) h1 ;; h3 <- put_prv item None h2 ;; put_nxt item None h3.

(** The test at jsiUtils.c 1523: the item is in the list it names. *)
Definition is_in_list (item : Z) (h : heap) : option bool :=
  e <- en h item ;; x <- li h (own e) ;;
  Some (match head x with Some a => a =? item | None => false end
        || match prv e with Some _ => true | None => false end
        || match nxt e with Some _ => true | None => false end).

(** Jsi_ListPush, jsiUtils.c 1519-1551 *)
Definition list_push (l item : Z) (before : option Z) (h : heap) : option heap :=
  b <- is_in_list item h ;;
  e <- en h item ;;
  h0 <- (if b : bool then list_pop (own e) item h else Some h) ;;
  h1 <- put_own item l h0 ;;
  x <- li h1 l ;;
  h2 <- match head x with
        | None => h' <- put_tail l (Some item) h1 ;; put_head l (Some item) h'
        | Some hd =>
            if item =? hd then None
            else match before with
                 | None => h' <- put_prv item (tail x) h1 ;; t <- tail x ;; h'' <- put_nxt t (Some item) h' ;;
                           put_tail l (Some item) h''
                 | Some b =>
                     if b =? hd then
                       h' <- put_nxt item (Some hd) h1 ;; h'' <- put_prv hd (Some item) h' ;; put_head l (Some item) h''
                     else
                       h' <- put_nxt item (Some b) h1 ;; eb <- en h' b ;; h'' <- put_prv item (prv eb) h' ;;
                       p <- prv eb ;; h3 <- put_nxt p (Some item) h'' ;; put_prv b (Some item) h3
                 end
        end ;;
  add_num l 1 h2.

(** Jsi_ListEntryNew, jsiUtils.c 1580-1590; [a] is the address calloc returns *)
Definition entry_new (a l : Z) (v : V) (before : option Z) (h : heap) : option heap :=
  list_push l a before (set_en a (Some (mkE None None l v)) h).

(** Jsi_ListEntryDelete, jsiUtils.c 1592-1598 *)
Definition entry_delete (a : Z) (h : heap) : option heap :=
  e <- en h a ;;
  h1 <- match nxt e, prv e with None, None => Some h | _, _ => list_pop (own e) a h end ;;
  Some (set_en a None h1).

(** Jsi_ListClear, jsiUtils.c 1506-1517; the fuel bounds the while loop *)
Fixpoint clear_loop (fuel : nat) (l : Z) (h : heap) : option heap :=
  match fuel with
  | O => None
  | S fuel =>
      x <- li h l ;;
      match head x with
      | None => Some h
      | Some a =>
          ea <- en h a ;; h1 <- put_head l (nxt ea) h ;;
          h2 <- put_prv a None h1 ;; h3 <- put_nxt a None h2 ;;
          h4 <- entry_delete a h3 ;; clear_loop fuel l h4
      end
  end.
Definition list_clear (fuel : nat) (l : Z) (h : heap) : option heap :=
  h1 <- clear_loop fuel l h ;; x <- li h1 l ;; Some (set_li l (Some (mkL (head x) (tail x) 0)) h1).

(** Jsi_ListDelete, jsiUtils.c 1499-1504 *)
Definition list_delete (fuel : nat) (l : Z) (h : heap) : option heap :=
  h1 <- list_clear fuel l h ;; Some (set_li l None h1).

(** Jsi_ListSize, jsiUtils.c 1623-1626 *)
Definition list_size (l : Z) (h : heap) : option Z := x <- li h l ;; Some (num x mod 2 ^ 32).
(** Jsi_ListGetFront, Jsi_ListGetBack: jsi.h 882-883 *)
Definition get_front (l : Z) (h : heap) : option (option Z) := x <- li h l ;; Some (head x).
Definition get_back (l : Z) (h : heap) : option (option Z) := x <- li h l ;; Some (tail x).
(** Jsi_ListValueGet, Jsi_ListValueSet: jsiUtils.c 1628-1635 *)
Definition value_get (a : Z) (h : heap) : option V := e <- en h a ;; Some (val e).
Definition value_set (a : Z) (v : V) (h : heap) : option heap :=
  e <- en h a ;; Some (set_en a (Some (mkE (nxt e) (prv e) (own e) v)) h).

(** Jsi_ListSearchFirst and Jsi_ListSearchNext, jsiUtils.c 1600-1621: the entry returned and the
    new nextEntryPtr; [back] is JSI_LIST_REVERSE. *)
Definition search_step (back : bool) (p : option Z) (h : heap) : option (option Z * option Z) :=
  match p with
  | None => Some (None, None)
  | Some a => e <- en h a ;; Some (Some a, if back then prv e else nxt e)
  end.
Definition search_first (back : bool) (l : Z) (h : heap) : option (option Z * option Z) :=
  x <- li h l ;; search_step back (if back then tail x else head x) h.

(** A search that goes on until it returns NULL returns, in order, the entries of the list. *)
Inductive visits (back : bool) (h : heap) : option Z * option Z -> list Z -> Prop :=
| visits_end : forall p, visits back h (None, p) []
| visits_next : forall a p r l, search_step back p h = Some r -> visits back h r l -> visits back h (Some a, p) (a :: l).

(** A call of the API. *)
Inductive call :=
| ListNew (l : Z) | EntryNew (a l : Z) (v : V) (before : option Z) | Push (l a : Z) (before : option Z)
| Pop (l a : Z) | EntryDelete (a : Z) | Clear (l : Z) | ListDelete (l : Z) | ValueSet (a : Z) (v : V)
| Size (l : Z) | Front (l : Z) | Back (l : Z) | ValueGet (a : Z).
Inductive answer := AUnit | ANum (n : Z) | AEntry (a : option Z) | AVal (v : V).
Definition do_call (fuel : nat) (c : call) (h : heap) : option (answer * heap) :=
  match c with
  | ListNew l => Some (AUnit, list_new l h)
  | EntryNew a l v b => h' <- entry_new a l v b h ;; Some (AUnit, h')
  | Push l a b => h' <- list_push l a b h ;; Some (AUnit, h')
  | Pop l a => h' <- list_pop l a h ;; Some (AUnit, h')
  | EntryDelete a => h' <- entry_delete a h ;; Some (AUnit, h')
  | Clear l => h' <- list_clear fuel l h ;; Some (AUnit, h')
  | ListDelete l => h' <- list_delete fuel l h ;; Some (AUnit, h')
  | ValueSet a v => h' <- value_set a v h ;; Some (AUnit, h')
  | Size l => n <- list_size l h ;; Some (ANum n, h)
  | Front l => p <- get_front l h ;; Some (AEntry p, h)
  | Back l => p <- get_back l h ;; Some (AEntry p, h)
  | ValueGet a => v <- value_get a h ;; Some (AVal v, h)
  end.
Fixpoint calls (fuel : nat) (cs : list call) (h : heap) : option (list answer * heap) :=
  match cs with
  | [] => Some ([], h)
  | c :: r => x <- do_call fuel c h ;; y <- calls fuel r (snd x) ;; Some (fst x :: fst y, snd y)
  end.
Definition empty_heap : heap := mkH (fun _ => None) (fun _ => None).
End L.
