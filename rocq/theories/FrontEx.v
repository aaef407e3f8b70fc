(** * Concrete calls, for examples and counterexamples *)
From Coq Require Import String Ascii List NArith ZArith Reals Bool Lia.
From Verif Require Import Cx Bits Arith ArithR IndexMap Sim SimExp SimApply Spec SpecRun SimRun Text SpecText Backend World BackEx Runner SpecRunner
  RunnerThms RunnerLink RunnerEx Front SpecFront CliThms FrontThms.
Import ListNotations.
Local Open Scope string_scope.
Local Existing Instance T0.
Local Existing Instance E0.
Local Existing Instance D0.
Local Existing Instance SW0.
Local Existing Instance RN0.
(** Prints an integer with a tag; prints one with a tag that is not UTF-8. *)
Definition note_main : func := entry "main" [("EntryPoint", "")] 0 true (straight [QRecord (RecInt 5 (Some (lit "n")))]).
Definition odd_main : func := entry "main" [("EntryPoint", "")] 0 true (straight [QRecord (RecInt 5 (Some [ascii_of_N 255]))]).
Definition prior : call := CMain ["qir-runner"; "--rngseed=7"; "-f"; "a.ll"] true [].
Definition py : call := CRun "a.ll" (Some "main") (Some 2%N) None true.
Definition cl : call := CMain ["qir-runner"; "-s2"; "--entrypoint"; "main"; "--file=a.ll"] false [].
