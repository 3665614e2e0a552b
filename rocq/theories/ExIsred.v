(** * Double constants for the examples of PropIsred.v (apart, because importing Floats hides the real sqrt) *)
From Coq Require Import Floats.
Definition theta1 : float := 0x1.4f8b588e368f1p-17%float. (* 0.00001, src/hlll.cc 2347 *)
Definition theta2 : float := 0x1.0624dd2f1a9fcp-10%float. (* 0.001, 2462 *)
Definition d75 : float := 0.75%float.
Definition z0 : float := 0%float.
