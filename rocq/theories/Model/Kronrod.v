(** Model of kronrod_31_15, /repo/src/sparse_ir/_gauss.py:232-260: the decimal
    literals of the source, as exact rationals. *)
From Coq Require Import List Reals.
From Verif.Model Require Import Base Num Gauss.
Import ListNotations.
Open Scope R_scope.

(** _gauss.py:233-243 *)
Definition kronrod_x : list R :=
  [-0.99800229869339710; -0.98799251802048540; -0.96773907567913910; -0.93727339240070600;
   -0.89726453234408190; -0.84820658341042720; -0.79041850144246600; -0.72441773136017010;
   -0.65099674129741700; -0.57097217260853880; -0.48508186364023970; -0.39415134707756340;
   -0.29918000715316884; -0.20119409399743451; -0.10114206691871750; 0.00000000000000000;
   0.10114206691871750; 0.20119409399743451; 0.29918000715316884; 0.39415134707756340;
   0.48508186364023970; 0.57097217260853880; 0.65099674129741700; 0.72441773136017010;
   0.79041850144246600; 0.84820658341042720; 0.89726453234408190; 0.93727339240070600;
   0.96773907567913910; 0.98799251802048540; 0.99800229869339710].
(** _gauss.py:244-254 *)
Definition kronrod_w : list R :=
  [0.005377479872923349; 0.015007947329316122; 0.025460847326715320; 0.035346360791375850;
   0.044589751324764880; 0.053481524690928090; 0.062009567800670640; 0.069854121318728260;
   0.076849680757720380; 0.083080502823133020; 0.088564443056211760; 0.093126598170825320;
   0.096642726983623680; 0.099173598721791960; 0.100769845523875590; 0.101330007014791540;
   0.100769845523875590; 0.099173598721791960; 0.096642726983623680; 0.093126598170825320;
   0.088564443056211760; 0.083080502823133020; 0.076849680757720380; 0.069854121318728260;
   0.062009567800670640; 0.053481524690928090; 0.044589751324764880; 0.035346360791375850;
   0.025460847326715320; 0.015007947329316122; 0.005377479872923349].
(** _gauss.py:255-259 *)
Definition kronrod_v : list R :=
  [0.03075324199611727; 0.07036604748810812; 0.10715922046717194; 0.13957067792615432;
   0.16626920581699392; 0.18616100001556220; 0.19843148532711158; 0.20257824192556130;
   0.19843148532711158; 0.18616100001556220; 0.16626920581699392; 0.13957067792615432;
   0.10715922046717194; 0.07036604748810812; 0.03075324199611727].
(** _gauss.py:260 with the defaults of NestedRule.__init__, _gauss.py:205-208. *)
Definition kronrod_31_15 : nested :=
  Nested (rule_init kronrod_x kronrod_w None None (-1) 1) kronrod_v.
