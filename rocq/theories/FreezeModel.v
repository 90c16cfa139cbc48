(** Model of the freeze/thaw handshake of ff_thread, /repo/ff/node.hpp L246-L437: one worker thread and one
    controlling thread.  Each critical section of the mutex is one step; everything read or written
    outside it is a step of its own.  Condition variables: a thread that waits is [asleep] until a signal or a
    spurious wakeup moves it to [woken]; it then reacquires the mutex and tests again.
    Not modelled: cancellation, the initial barrier, thread creation failures. *)
From Coq Require Import List Arith Bool.
From Verif Require Import Base.
Import ListNotations.

(** What a run of svc returned: FF_EOS, FF_EOS_NOFREEZE, or anything else. *)
Inductive res := REos | RNoFreeze | ROther.

(** The worker, thread_routine L246-L309. *)
Inductive wpc :=
| WInit              (* L259-L260: about to call svc_init *)
| WRun               (* L265-L267: inside svc, svc_end *)
| WLock (r : res)    (* L276: about to lock *)
| WSleep             (* L282: in pthread_cond_wait(&cond) *)
| WWake              (* L282: woken, about to test freezing again *)
| WCheck             (* L296: while(!stp) *)
| WExit              (* L298: if (freezing) *)
| WFin               (* L299: about to lock *)
| WDone.             (* L304 *)

(** The controller: between two calls, in wait_freezing L403-L408 (the flag says whether it was called by
    wait), or in wait L380-L401. *)
Inductive kpc :=
| KIdle
| KWf (inwait : bool)       (* L404: about to lock *)
| KWfSleep (inwait : bool)  (* L405: in pthread_cond_wait(&cond_frozen) *)
| KWfWake (inwait : bool)   (* L405: woken *)
| KW1                       (* L383: if (isfrozen()) *)
| KThaw                     (* L385: thaw() *)
| KJoin                     (* L388: pthread_join *)
| KEnd.

(** [runs]: completed runs of svc other than those that returned FF_EOS_NOFREEZE; [thaws]: calls of thaw
    by the user; [armed]: wait_freezing has returned 0 since the last thaw, stop or wait, [waited]: wait was called.  No step
    of the code reads these four. *)
Record ft := mkF {
  stp : bool; freezing : nat; frozen : bool; initerr : bool;
  wp : wpc; kp : kpc; runs : nat; thaws : nat; armed : bool; waited : bool }.

Definition set_w (s : ft) p := mkF (stp s) (freezing s) (frozen s) (initerr s) p (kp s) (runs s) (thaws s) (armed s) (waited s).
Definition set_k (s : ft) p := mkF (stp s) (freezing s) (frozen s) (initerr s) (wp s) p (runs s) (thaws s) (armed s) (waited s).

(** pthread_cond_signal(&cond_frozen), L281, L301 *)
Definition signal_k (p : kpc) : kpc := match p with KWfSleep b => KWfWake b | q => q end.
(** pthread_cond_signal(&cond), L430 *)
Definition signal_w (p : wpc) : wpc := match p with WSleep => WWake | q => q end.

(** L279-L283 and L289: test, sleep, or leave the critical section. *)
Definition sleep_or_go (s : ft) : ft :=
  if freezing s =? 1
  then mkF (stp s) 1 true (initerr s) WSleep (signal_k (kp s)) (runs s) (thaws s) (armed s) (waited s)
  else mkF (stp s) (if freezing s =? 0 then 0 else 1) (frozen s) (initerr s) WCheck (kp s) (runs s) (thaws s) (armed s) (waited s).

Definition wstep (s : ft) : option ft :=
  match wp s with
  | WLock r =>          (* L276-L290 *)
      match r with
      | RNoFreeze => Some (mkF (stp s) (if freezing s =? 0 then 0 else 1) (frozen s) (initerr s) WCheck (kp s) (runs s) (thaws s) (armed s) (waited s))
      | _ =>
          if stp s
          then Some (mkF (stp s) (if freezing s =? 0 then 0 else 1) (frozen s) (initerr s) WCheck (kp s) (runs s) (thaws s) (armed s) (waited s))
          else let st := match r with REos => freezing s =? 0 | _ => false end in      (* L278 *)
               Some (sleep_or_go (mkF st (freezing s) (frozen s) (initerr s) (wp s) (kp s) (runs s) (thaws s) (armed s) (waited s)))
      end
  | WWake => Some (sleep_or_go s)
  | WCheck => Some (set_w s (if stp s then WExit else WInit))
  | WExit => Some (set_w s (if freezing s =? 0 then WDone else WFin))
  | WFin => Some (mkF (stp s) (freezing s) true (initerr s) WDone (signal_k (kp s)) (runs s) (thaws s) (armed s) (waited s))
  | _ => None
  end.

(** thaw, L417-L437 (without counting it in [thaws]). *)
Definition do_thaw (s : ft) (again : bool) : ft :=
  mkF (stp s) (if again then 2 else 0) false (initerr s) (signal_w (wp s)) (kp s) (runs s) (thaws s) (armed s) (waited s).

(** while(!frozen) wait, L405-L407 *)
Definition wf_test (s : ft) (b : bool) : ft :=
  if frozen s
  then if b then set_k s KThaw
       else mkF (stp s) (freezing s) (frozen s) (initerr s) (wp s) KIdle (runs s) (thaws s) (negb (initerr s)) (waited s)
  else set_k s (KWfSleep b).

Definition kstep (s : ft) : option ft :=
  match kp s with
  | KWf b | KWfWake b => Some (wf_test s b)
  | KW1 => Some (set_k s (if freezing s =? 0 then KJoin else KWf true))
  | KThaw => Some (set_k (do_thaw s false) KJoin)
  | KJoin => match wp s with WDone => Some (set_k s KEnd) | _ => None end
  | _ => None
  end.

Inductive fact :=
| AInit (ok : bool)         (* svc_init returns *)
| ARun (r : res)            (* svc returns *)
| AWorker                   (* the worker's next step *)
| AWSpurious                (* the worker's pthread_cond_wait returns by itself *)
| AKSpurious                (* the same for the controller *)
| AKStep                    (* the controller's next step inside a call *)
| CWaitFreezing | CThaw (again : bool) | CStop | CWait.   (* the controller calls *)

Definition fstep (s : ft) (a : fact) : option ft :=
  match a with
  | AInit ok => match wp s with
      | WInit => Some (mkF (stp s) (freezing s) (frozen s) (negb ok) (if ok then WRun else WExit) (kp s) (runs s) (thaws s) (armed s) (waited s))
      | _ => None end
  | ARun r => match wp s with
      | WRun => Some (mkF (stp s) (freezing s) (frozen s) (initerr s) (WLock r) (kp s)
                          (match r with RNoFreeze => runs s | _ => S (runs s) end) (thaws s) (armed s) (waited s))
      | _ => None end
  | AWorker => wstep s
  | AWSpurious => match wp s with WSleep => Some (set_w s WWake) | _ => None end
  | AKSpurious => match kp s with KWfSleep b => Some (set_k s (KWfWake b)) | _ => None end
  | AKStep => kstep s
  | CWaitFreezing => match kp s with
      | KIdle => Some (mkF (stp s) (freezing s) (frozen s) (initerr s) (wp s) (KWf false) (runs s) (thaws s) false (waited s))
      | _ => None end
  | CThaw again => match kp s with
      | KIdle => let s := do_thaw s again in
                 Some (mkF (stp s) (freezing s) (frozen s) (initerr s) (wp s) (kp s) (runs s) (S (thaws s)) false (waited s))
      | _ => None end
  | CStop => match kp s with        (* L410 *)
      | KIdle => Some (mkF true (freezing s) (frozen s) (initerr s) (wp s) (kp s) (runs s) (thaws s) false (waited s))
      | _ => None end
  | CWait => match kp s with        (* L382: stp = true *)
      | KIdle => Some (mkF true (freezing s) (frozen s) (initerr s) (wp s) KW1 (runs s) (thaws s) false true)
      | _ => None end
  end.

(** run_then_freeze on a fresh node: freeze() L412-L415, then spawn. *)
Definition ft_init : ft := mkF false 1 false false WInit KIdle 0 0 false false.

(** The discipline under which the handshake is used: thaw is called only after wait_freezing has returned 0. *)
Definition fgstep (s : ft) (a : fact) : option ft :=
  match a with
  | CThaw _ => if armed s then fstep s a else None
  | CStop => None
  | _ => fstep s a
  end.
