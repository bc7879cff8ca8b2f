(** Programs that use an object with memo tables.

    A routine that uses the object is a [gprog]: it computes locally and asks the
    object for values.  [run] answers every request by a function (no tables),
    [srun] by an object with a state, as the C++ code does.  Used by CacheModel.v
    (/repo/dr, /repo/hypersurface) and NDCacheModel.v (/repo/dr_nd,
    /repo/hypersurface_nd). *)
From Coq Require Import ZArith List Bool.
From Verif Require Import Base VecModel MatModel.
Import ListNotations.

(** [ans r] is the type of the answer to the request [r] *)
Inductive gprog (Q : Type) (ans : Q -> Type) (A : Type) : Type :=
| Ret (a : A)
| Fail (e : err)
| Ask (r : Q) (k : ans r -> gprog Q ans A).
Arguments Ret {Q ans A} a.
Arguments Fail {Q ans A} e.
Arguments Ask {Q ans A} r k.

Section PROG.
  Context {Q : Type} {ans : Q -> Type}.

  Fixpoint pbind {A B} (m : gprog Q ans A) (f : A -> gprog Q ans B) : gprog Q ans B :=
    match m with
    | Ret a => f a
    | Fail e => Fail e
    | Ask r k => Ask r (fun x => pbind (k x) f)
    end.
  Definition lift {A} (x : res A) : gprog Q ans A := match x with OK a => Ret a | Err e => Fail e end.
  Definition ask (r : Q) : gprog Q ans (ans r) := Ask r (fun x => Ret x).
  Fixpoint foldP {A S} (f : S -> A -> gprog Q ans S) (l : list A) (s : S) : gprog Q ans S :=
    match l with [] => Ret s | a :: r => pbind (f s a) (fun s' => foldP f r s') end.
  Fixpoint mapP {A B} (f : A -> gprog Q ans B) (l : list A) : gprog Q ans (list B) :=
    match l with
    | [] => Ret []
    | a :: r => pbind (f a) (fun b => pbind (mapP f r) (fun bs => Ret (b :: bs)))
    end.

  Fixpoint run {A} (h : forall r, res (ans r)) (m : gprog Q ans A) : res A :=
    match m with
    | Ret a => OK a
    | Fail e => Err e
    | Ask r k => x <- h r ;; run h (k x)
    end.

  (** [C]: the state of the object *)
  Context {C : Type}.
  Fixpoint srun {A} (h : C -> forall r, res (ans r * C)) (c : C) (m : gprog Q ans A) : res (A * C) :=
    match m with
    | Ret a => OK (a, c)
    | Fail e => Err e
    | Ask r k => xc <- h c r ;; srun h (snd xc) (k (fst xc))
    end.

  (** Threads sharing one object.  A thread's next request is served atomically;
      a schedule lists which thread moves.  A failure of one thread (failed
      assertion, abort) ends the whole program. *)
  Fixpoint threads_run {A} (h : C -> forall r, res (ans r * C)) (sched : list nat)
      (c : C) (ts : list (gprog Q ans A)) : res (C * list (gprog Q ans A)) :=
    match sched with
    | [] => OK (c, ts)
    | i :: sched =>
        match nth_error ts i with
        | None => threads_run h sched c ts
        | Some (Ret _) => threads_run h sched c ts
        | Some (Fail e) => Err e
        | Some (Ask r k) =>
            xc <- h c r ;; threads_run h sched (snd xc) (upd ts i (k (fst xc)))
        end
    end.

  (** all threads have finished: their results *)
  Fixpoint finished {A} (ts : list (gprog Q ans A)) : option (list A) :=
    match ts with
    | [] => Some []
    | Ret a :: r => option_map (cons a) (finished r)
    | _ => None
    end.
End PROG.

Notation "x <~ e1 ;; e2" := (pbind e1 (fun x => e2))
  (at level 61, e1 at next level, right associativity).
