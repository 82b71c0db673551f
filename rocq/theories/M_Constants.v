(** Model of torchdyn/numerics/solvers/_constants.py: tableaux of the explicit solvers.
    Literals are the exact rationals written in the source (torch rounds them to [dtype]). *)
From Coq Require Import ZArith QArith List.
From Verif Require Import Num Tensor.
Import ListNotations.

(** [ExplicitRKTableau] (line 17): nodes c, rows A, solution weights, error weights. *)
Record tableau (K : NumOps) : Type := MkTab {
  tc : list K; ta : list (list K); tb : list K; te : list K }.
Arguments tc {K}. Arguments ta {K}. Arguments tb {K}. Arguments te {K}.

Section Constants.
Context (K : NumOps).

(** construct_rk4, lines 20-28.  Note that [c] holds all four nodes while [a] holds only the
    rows of stages 2..4. *)
Definition construct_rk4 : tableau K :=
  {| tc := [nQ (0 # 1); nQ (1 # 2); nQ (1 # 2); nQ (1 # 1)];
     ta := [[nQ (1 # 2)]; [nQ (0 # 1); nQ (1 # 2)]; [nQ (0 # 1); nQ (0 # 1); nQ (1 # 1)]];
     tb := [nQ (1 # 6); nQ (1 # 3); nQ (1 # 3); nQ (1 # 6)];
     te := [nQ (0 # 1)] |}.

(** construct_dopri5, lines 31-46 ([dmid] is unused by the source) *)
Definition construct_dopri5 : tableau K :=
  let bsol := [nQ (35 # 384);
     nQ (0 # 1);
     nQ (500 # 1113);
     nQ (125 # 192);
     nQ (-2187 # 6784);
     nQ (11 # 84);
     nQ (0 # 1)] in
  let berr := [nQ (1951 # 21600);
     nQ (0 # 1);
     nQ (22642 # 50085);
     nQ (451 # 720);
     nQ (-12231 # 42400);
     nQ (649 # 6300);
     nQ (1 # 60)] in
  {| tc := [nQ (1 # 5);
     nQ (3 # 10);
     nQ (4 # 5);
     nQ (8 # 9);
     nQ (1 # 1);
     nQ (1 # 1)];
     ta := [[nQ (1 # 5)];
     [nQ (3 # 40);
     nQ (9 # 40)];
     [nQ (44 # 45);
     nQ (-56 # 15);
     nQ (32 # 9)];
     [nQ (19372 # 6561);
     nQ (-25360 # 2187);
     nQ (64448 # 6561);
     nQ (-212 # 729)];
     [nQ (9017 # 3168);
     nQ (-355 # 33);
     nQ (46732 # 5247);
     nQ (49 # 176);
     nQ (-5103 # 18656)];
     [nQ (35 # 384);
     nQ (0 # 1);
     nQ (500 # 1113);
     nQ (125 # 192);
     nQ (-2187 # 6784);
     nQ (11 # 84)]];
     tb := bsol;
     te := vsub bsol berr |}.

(** construct_tsit5, lines 49-112 *)
Definition construct_tsit5 : tableau K :=
  let bsol := [nQ (9646076681806522951816731316512876333711995238157997181903319145764851595234062815396 # 100000000000000000000000000000000000000000000000000000000000000000000000000000000000000);
     nQ (1 # 100);
     nQ (4798896504144995747752495322905965199130404621990332488332634944254542060153074523509 # 10000000000000000000000000000000000000000000000000000000000000000000000000000000000000);
     nQ (1379008574103741893192274821856872770756462643091360525934940067397245698027561293331 # 1000000000000000000000000000000000000000000000000000000000000000000000000000000000000);
     nQ (-3290069515436080679901047585711363850115683290894936158531296799594813811049925401677 # 1000000000000000000000000000000000000000000000000000000000000000000000000000000000000);
     nQ (2324710524099773982415355918398765796109060233222962411944060046314465391054716027841 # 1000000000000000000000000000000000000000000000000000000000000000000000000000000000000);
     nQ (0 # 1)] in
  let berr := [nQ (9468075576583945807478876255758922856117527357724631226139574065785592789071067303271 # 100000000000000000000000000000000000000000000000000000000000000000000000000000000000000);
     nQ (9183565540343253096776363936645313759813746240984095238905939532922955247253608687270 # 1000000000000000000000000000000000000000000000000000000000000000000000000000000000000000);
     nQ (4877705284247615707855642599631228241516691959761363774365216240304071651579571959813 # 10000000000000000000000000000000000000000000000000000000000000000000000000000000000000);
     nQ (1234297566930478985655109673884237654035539930748192848315425833500484878378061439761 # 1000000000000000000000000000000000000000000000000000000000000000000000000000000000000);
     nQ (-2707712349983525454881109975059321670689605166938197378763992255714444407154902012702 # 1000000000000000000000000000000000000000000000000000000000000000000000000000000000000);
     nQ (1866628418170587035753719399566211498666255505244122593996591602841258328965767580089 # 1000000000000000000000000000000000000000000000000000000000000000000000000000000000000);
     nQ (1 # 66)] in
  {| tc := [nQ (161 # 1000);
     nQ (327 # 1000);
     nQ (9 # 10);
     nQ (9800255409045096857298102862870245954942137979563024768854764293221195950761080302604 # 10000000000000000000000000000000000000000000000000000000000000000000000000000000000000);
     nQ (1 # 1);
     nQ (1 # 1)];
     ta := [[nQ (161 # 1000)];
     [nQ (-8480655492356988544426874250230774675121177393430391537369234245294192976164141156943 # 1000000000000000000000000000000000000000000000000000000000000000000000000000000000000000);
     nQ (3354806554923569885444268742502307746751211773934303915373692342452941929761641411569 # 10000000000000000000000000000000000000000000000000000000000000000000000000000000000000)];
     [nQ (2897153057105493432130432594192938764924887287701866490314866693455023795137503079289 # 1000000000000000000000000000000000000000000000000000000000000000000000000000000000000);
     nQ (-6359448489975074843148159912383825625952700647415626703305928850207288721235210244366 # 1000000000000000000000000000000000000000000000000000000000000000000000000000000000000);
     nQ (4362295432869581411017727318190886861027813359713760212991062156752264926097707165077 # 1000000000000000000000000000000000000000000000000000000000000000000000000000000000000)];
     [nQ (5325864828439256604428877920840511317836476253097040101202360397727981648835607691791 # 1000000000000000000000000000000000000000000000000000000000000000000000000000000000000);
     nQ (-1174888356406282787774717033978577296188744178259862899288666928009020615663593781589 # 100000000000000000000000000000000000000000000000000000000000000000000000000000000000);
     nQ (7495539342889836208304604784564358155658679161518186721010132816213648793440552049753 # 1000000000000000000000000000000000000000000000000000000000000000000000000000000000000);
     nQ (-9249506636175524925650207933207191611349983406029535244034750452930469056411389539635 # 100000000000000000000000000000000000000000000000000000000000000000000000000000000000000)];
     [nQ (5861455442946420028659251486982647890394337666164814434818157239052507339770711679748 # 1000000000000000000000000000000000000000000000000000000000000000000000000000000000000);
     nQ (-1292096931784710929170611868178335939541780751955743459166312250439928519268343184452 # 100000000000000000000000000000000000000000000000000000000000000000000000000000000000);
     nQ (8159367898576158643180400794539253485181918321135053305748355423955009222648673734986 # 1000000000000000000000000000000000000000000000000000000000000000000000000000000000000);
     nQ (-7158497328140099722453054252582973869127213147363544882721139659546372402303777878835 # 100000000000000000000000000000000000000000000000000000000000000000000000000000000000000);
     nQ (-2826905039406838290900305721271224146717633626879770007617876201276764571291579142206 # 100000000000000000000000000000000000000000000000000000000000000000000000000000000000000)];
     [nQ (9646076681806522951816731316512876333711995238157997181903319145764851595234062815396 # 100000000000000000000000000000000000000000000000000000000000000000000000000000000000000);
     nQ (1 # 100);
     nQ (4798896504144995747752495322905965199130404621990332488332634944254542060153074523509 # 10000000000000000000000000000000000000000000000000000000000000000000000000000000000000);
     nQ (1379008574103741893192274821856872770756462643091360525934940067397245698027561293331 # 1000000000000000000000000000000000000000000000000000000000000000000000000000000000000);
     nQ (-3290069515436080679901047585711363850115683290894936158531296799594813811049925401677 # 1000000000000000000000000000000000000000000000000000000000000000000000000000000000000);
     nQ (2324710524099773982415355918398765796109060233222962411944060046314465391054716027841 # 1000000000000000000000000000000000000000000000000000000000000000000000000000000000000)]];
     tb := bsol;
     te := vsub bsol berr |}.

(** construct_4th, lines 121-127 *)
Definition construct_4th : list K :=
  [nQ (10013431883002395 # 100000000000000000);
     nQ (0 # 1);
     nQ (3918321794184259 # 10000000000000000);
     nQ (-2982460176594817 # 100000000000000000);
     nQ (5893268337240795 # 100000000000000000);
     nQ (-4497888809104361 # 100000000000000000);
     nQ (23904308236133973 # 1000000000000000000)].

End Constants.
