(** Signals: handle.c and main.c.  Signals can be delivered between any two accesses to the variables of these files, also
    while another signal is handled.  Simplified: each operation is one access to a volatile variable or one call of [signal]
    (which keeps the handler and blocks the signal while it runs, as in the GNU C library); assertions are off, as in release
    builds, except those of lines 37-38 and 67, which are part of the call they guard; the reports and [kissat_terminate] are single operations; the application does not exit by itself. *)
From Coq Require Import List Bool Arith.
Import ListNotations.
Open Scope nat_scope.

(** handle.h 17-27, and the alarm *)
Inductive sig := SIGABRT | SIGBUS | SIGINT | SIGSEGV | SIGTERM | SIGALRM.
Definition sig_eqb (a b : sig) : bool :=
  match a, b with
  | SIGABRT, SIGABRT | SIGBUS, SIGBUS | SIGINT, SIGINT | SIGSEGV, SIGSEGV | SIGTERM, SIGTERM | SIGALRM, SIGALRM => true
  | _, _ => false
  end.
Definition SIGNALS : list sig := [SIGABRT; SIGBUS; SIGINT; SIGSEGV; SIGTERM].
(** What the system does if a signal is delivered: by default it ends the process. *)
Inductive disposition := Default | Catch_signal | Catch_alarm.
Inductive solver_state := Not_yet | Live | Released.

Definition upd_sig {A} (f : sig -> A) (s : sig) (x : A) : sig -> A := fun k => if sig_eqb k s then x else f k.

(** handle.c 7-15: variables for signals, with the dispositions in the system.  [s_temp] is the result of [signal] before
    it is stored; pointers to functions are true iff they are not null. *)
Record svars := mk_svars { s_disp : sig -> disposition; s_saved : sig -> disposition; s_temp : disposition; s_handler : bool; s_handler_set : bool }.
(** handle.c 53-56 and main.c 10, 27: variables for the alarm, and the solver. *)
Record avars := mk_avars { a_disp : disposition; a_saved : disposition; a_handle : bool; a_set : bool; a_ignore : bool; a_solver : solver_state }.
(** Variables which only the handlers change: [caught_signal], [caught_alarm] and [handler] in handle.c 34, 60 and 63,
    whether the solver was asked to terminate, the signals reported (main.c 14-24), and pending signals. *)
Record hvars := mk_hvars { h_caught : option sig; h_caught_alarm : bool; h_copy : bool; h_terminated : bool; h_reports : list sig; h_pending : sig -> bool }.

(** One access each. *)
Inductive op :=
| Init | Alarm_handler | Alarm_set | Alarm_install | Alarm_store
| Handler | Handler_set | Install (s : sig) | Store (s : sig)
| App (n : nat)
| Reset_check | Restore (s : sig) | Handler_unset | Handler_null
| Ignore_alarm | Alarm_unset | Alarm_null | Alarm_restore | Release | Return
| Check | Set_caught (s : sig) | Call (s : sig) | Raise (s : sig)
| Check_alarm | Set_alarm | Copy | Raise_alarm | Call_alarm.

(** handle.c 18-29 *)
Definition reset_ops : list op := Reset_check :: map Restore SIGNALS ++ [Handler_unset; Handler_null].
(** main.c 43-62 with handle.c 44-51, 71-78 and 80-86; the application, which does not access these variables, takes
    any number [n] of steps. *)
Definition main_ops (n : nat) : list op :=
  [Init; Alarm_handler; Alarm_set; Alarm_install; Alarm_store; Handler; Handler_set] ++
  flat_map (fun s => [Install s; Store s]) SIGNALS ++ App n :: reset_ops ++
  [Ignore_alarm; Alarm_unset; Alarm_null; Alarm_restore; Release; Return].
(** handle.c 33-42 *)
Definition catch_ops (s : sig) : list op := [Check; Set_caught s; Call s] ++ reset_ops ++ [Raise s].
(** handle.c 58-69 *)
Definition alarm_ops : list op := [Check_alarm; Set_alarm; Copy; Raise_alarm; Call_alarm].

(** The effect on control: go on, leave the function, leave [kissat_reset_signal_handler], call of a null pointer or use of
    a solver which does not exist, or exit of the process. *)
Inductive effect := Go (ops : list op) | Leave | Crash | Exit.
Definition exec (o : op) (ops : list op) (s : svars) (a : avars) (h : hvars) : svars * avars * hvars * effect :=
  match o with
  | Init => (s, mk_avars (a_disp a) (a_saved a) (a_handle a) (a_set a) (a_ignore a) Live, h, Go ops)
  | Alarm_handler => (s, mk_avars (a_disp a) (a_saved a) true (a_set a) (a_ignore a) (a_solver a), h, Go ops)
  | Alarm_set => (s, mk_avars (a_disp a) (a_saved a) (a_handle a) true (a_ignore a) (a_solver a), h, Go ops)
  | Alarm_install => (mk_svars (s_disp s) (s_saved s) (a_disp a) (s_handler s) (s_handler_set s),
                      mk_avars Catch_alarm (a_saved a) (a_handle a) (a_set a) (a_ignore a) (a_solver a), h, Go ops)
  | Alarm_store => (s, mk_avars (a_disp a) (s_temp s) (a_handle a) (a_set a) (a_ignore a) (a_solver a), h, Go ops)
  | Handler => (mk_svars (s_disp s) (s_saved s) (s_temp s) true (s_handler_set s), a, h, Go ops)
  | Handler_set => (mk_svars (s_disp s) (s_saved s) (s_temp s) (s_handler s) true, a, h, Go ops)
  | Install g => (mk_svars (upd_sig (s_disp s) g Catch_signal) (s_saved s) (s_disp s g) (s_handler s) (s_handler_set s), a, h, Go ops)
  | Store g => (mk_svars (s_disp s) (upd_sig (s_saved s) g (s_temp s)) (s_temp s) (s_handler s) (s_handler_set s), a, h, Go ops)
  | App (S n) => (s, a, h, Go (App n :: ops))
  | App O => (s, a, h, Go ops)
  | Reset_check => (s, a, h, Go (if s_handler_set s then ops else skipn (length SIGNALS + 2) ops))
  | Restore g => (mk_svars (upd_sig (s_disp s) g (s_saved s g)) (s_saved s) (s_temp s) (s_handler s) (s_handler_set s), a, h, Go ops)
  | Handler_unset => (mk_svars (s_disp s) (s_saved s) (s_temp s) (s_handler s) false, a, h, Go ops)
  | Handler_null => (mk_svars (s_disp s) (s_saved s) (s_temp s) false (s_handler_set s), a, h, Go ops)
  | Ignore_alarm => (s, mk_avars (a_disp a) (a_saved a) (a_handle a) (a_set a) true (a_solver a), h, Go ops)
  | Alarm_unset => (s, mk_avars (a_disp a) (a_saved a) (a_handle a) false (a_ignore a) (a_solver a), h, Go ops)
  | Alarm_null => (s, mk_avars (a_disp a) (a_saved a) false (a_set a) (a_ignore a) (a_solver a), h, Go ops)
  | Alarm_restore => (s, mk_avars (a_saved a) (a_saved a) (a_handle a) (a_set a) (a_ignore a) (a_solver a), h, Go ops)
  | Release => (s, mk_avars (a_disp a) (a_saved a) (a_handle a) (a_set a) (a_ignore a) Released, h, Go ops)
  | Return => (s, a, h, Exit)
  | Check => (s, a, h, match h_caught h with Some _ => Leave | None => Go ops end)
  | Set_caught g => (s, a, mk_hvars (Some g) (h_caught_alarm h) (h_copy h) (h_terminated h) (h_reports h) (h_pending h), Go ops)
  | Call g => if s_handler_set s && s_handler s && (match a_solver a with Live => true | _ => false end)
              then (s, a, mk_hvars (h_caught h) (h_caught_alarm h) (h_copy h) (h_terminated h) (g :: h_reports h) (h_pending h), Go ops)
              else (s, a, h, Crash)
  | Raise g => (s, a, mk_hvars (h_caught h) (h_caught_alarm h) (h_copy h) (h_terminated h) (h_reports h) (upd_sig (h_pending h) g true), Go ops)
  | Check_alarm => (s, a, h, if h_caught_alarm h then Leave else Go ops)
  | Set_alarm => (s, a, mk_hvars (h_caught h) true (h_copy h) (h_terminated h) (h_reports h) (h_pending h), Go ops)
  | Copy => (s, a, mk_hvars (h_caught h) (h_caught_alarm h) (a_handle a) (h_terminated h) (h_reports h) (h_pending h), Go ops)
  | Raise_alarm => (s, a, if a_set a then h
                          else mk_hvars (h_caught h) (h_caught_alarm h) (h_copy h) (h_terminated h) (h_reports h) (upd_sig (h_pending h) SIGALRM true), Go ops)
  | Call_alarm =>
      if negb (h_copy h) then (s, a, h, Crash)
      else if a_ignore a then (s, a, h, Go ops)
      else match a_solver a with
           | Live => (s, a, mk_hvars (h_caught h) (h_caught_alarm h) (h_copy h) true (h_reports h) (h_pending h), Go ops)
           | _ => (s, a, h, Crash)
           end
  end.

(** A signal is blocked while its handler runs; it stays pending until the handler returns.  The frames are the handlers
    which run, the innermost first, and [main] at the end, which has no signal. *)
Inductive status := Running | Killed (s : sig) | Crashed | Returned.
Definition frame := (option sig * list op)%type.
Record process := mk_process { p_s : svars; p_a : avars; p_h : hvars; p_frames : list frame; p_status : status }.
Definition blocked (g : sig) (fs : list frame) : bool :=
  existsb (fun f => match fst f with Some k => sig_eqb k g | None => false end) fs.
Definition disp (x : process) (g : sig) : disposition := match g with SIGALRM => a_disp (p_a x) | _ => s_disp (p_s x) g end.
Definition deliver (g : sig) (x : process) : process :=
  match disp x g with
  | Default => mk_process (p_s x) (p_a x) (p_h x) (p_frames x) (Killed g)
  | Catch_signal => mk_process (p_s x) (p_a x) (p_h x) ((Some g, catch_ops g) :: p_frames x) Running
  | Catch_alarm => mk_process (p_s x) (p_a x) (p_h x) ((Some g, alarm_ops) :: p_frames x) Running
  end.
Definition set_pending (g : sig) (b : bool) (h : hvars) : hvars :=
  mk_hvars (h_caught h) (h_caught_alarm h) (h_copy h) (h_terminated h) (h_reports h) (upd_sig (h_pending h) g b).
Definition run_one (x : process) : process :=
  match p_frames x with
  | (who, o :: ops) :: fs =>
      let '(s, a, h, e) := exec o ops (p_s x) (p_a x) (p_h x) in
      match e with
      | Go ops => mk_process s a h ((who, ops) :: fs) Running
      | Leave => mk_process s a h ((who, []) :: fs) Running
      | Crash => mk_process s a h ((who, o :: ops) :: fs) Crashed
      | Exit => mk_process s a h ((who, ops) :: fs) Returned
      end
  | (Some g, []) :: fs =>
      if h_pending (p_h x) g then deliver g (mk_process (p_s x) (p_a x) (set_pending g false (p_h x)) fs Running)
      else mk_process (p_s x) (p_a x) (p_h x) fs Running
  | _ => x
  end.
Inductive event := Run | Deliver (g : sig).
Definition step (x : process) (e : event) : process :=
  match p_status x with
  | Running =>
      match e with
      | Run => run_one x
      | Deliver g =>
          if blocked g (p_frames x) then mk_process (p_s x) (p_a x) (set_pending g true (p_h x)) (p_frames x) Running
          else deliver g x
      end
  | _ => x
  end.
Definition run (es : list event) (x : process) : process := fold_left step es x.

(** All dispositions are the default ones when the process starts, and static variables are zero. *)
Definition start (n : nat) : process :=
  mk_process (mk_svars (fun _ => Default) (fun _ => Default) Default false false)
    (mk_avars Default Default false false false Not_yet)
    (mk_hvars None false false false [] (fun _ => false)) [(None, main_ops n)] Running.
