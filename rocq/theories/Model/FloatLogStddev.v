(** LogStddevNormal in floating point, one element: log_stddev_normal.py.  [S] and [E] are the library's
    softplus and exp; [m] is the dtype's value of [math.log(max_scale)]. *)
From Coq Require Import Reals.
From Verif Require Import Base.XR Base.Float Model.FloatMoments.
Local Open Scope R_scope.
(** 61-66 *)
Definition fl_lsn_log_scale (dt : dtype) (S : XR -> XR) (max_log_scale : option XR) (log_scale : XR) : XR :=
  match max_log_scale with
  | Some m => fsub dt m (S (fsub dt m log_scale))
  | None => log_scale
  end.
Definition fl_lsn_scale (E : XR -> XR) (log_scale : XR) : XR := E log_scale.                              (* 67 *)
(** _kl_logstddevnormal_logstddevnormal, 98-101 *)
Definition fl_lsn_kl (dt : dtype) (loc1 scale1 log_scale1 loc2 scale2 log_scale2 : XR) : XR :=
  let variance1 := fl_square dt scale1 in
  let variance2 := fl_square dt scale2 in
  fsub dt (fsub dt (fadd dt (fdiv dt (fadd dt variance1 (fl_square dt (fsub dt loc1 loc2))) (fmul dt (Fin 2) variance2))
                            log_scale2) log_scale1) (Fin (1 / 2)).
