(** The initialisation code of SimplexQuadraturePoints<2>, SimplexQuadraturePoints<3>
    (simplexquadrature.hh) and PrismQuadraturePoints<3> (prismquadrature.hh), transcribed by
    tools/gen_tables_nd.py, in program order; the constant expressions are evaluated exactly. *)
From Coq Require Import ZArith QArith List.
From Verif Require Import M_Tab.
Import ListNotations.
Local Open Scope Q_scope.

(** simplexquadrature.hh:87-87 *)
Definition triangleInit_0 : list Assign := [
  AO 0 0%Z].

(** simplexquadrature.hh:98-101 *)
Definition triangleInit_1 : list Assign := [
  AG 1 0 0 (0.333333333333333333333333333333333);
  AG 1 0 1 (0.333333333333333333333333333333333);
  AW 1 0 (0.5);
  AO 1 1%Z].

(** simplexquadrature.hh:113-122 *)
Definition triangleInit_2 : list Assign := [
  AG 3 0 0 (4.0 / 6.0);
  AG 3 0 1 (1.0 / 6.0);
  AG 3 1 0 (1.0 / 6.0);
  AG 3 1 1 (4.0 / 6.0);
  AG 3 2 0 (1.0 / 6.0);
  AG 3 2 1 (1.0 / 6.0);
  AW 3 0 (0.5 / 3.0);
  AW 3 1 (0.5 / 3.0);
  AW 3 2 (0.5 / 3.0);
  AO 3 2%Z].

(** simplexquadrature.hh:134-147 *)
Definition triangleInit_3 : list Assign := [
  AG 4 0 0 (10.0 / 30.0);
  AG 4 0 1 (10.0 / 30.0);
  AG 4 1 0 (18.0 / 30.0);
  AG 4 1 1 (6.0 / 30.0);
  AG 4 2 0 (6.0 / 30.0);
  AG 4 2 1 (18.0 / 30.0);
  AG 4 3 0 (6.0 / 30.0);
  AG 4 3 1 (6.0 / 30.0);
  AW 4 0 (0.5 * -27.0 / 48.0);
  AW 4 1 (0.5 * 25.0 / 48.0);
  AW 4 2 (0.5 * 25.0 / 48.0);
  AW 4 3 (0.5 * 25.0 / 48.0);
  AO 4 3%Z].

(** simplexquadrature.hh:159-178 *)
Definition triangleInit_4 : list Assign := [
  AG 6 0 0 (0.81684757298045851308085707319560);
  AG 6 0 1 (0.091576213509770743459571463402202);
  AG 6 1 0 (0.091576213509770743459571463402202);
  AG 6 1 1 (0.81684757298045851308085707319560);
  AG 6 2 0 (0.091576213509770743459571463402202);
  AG 6 2 1 (0.091576213509770743459571463402202);
  AG 6 3 0 (0.10810301816807022736334149223390);
  AG 6 3 1 (0.44594849091596488631832925388305);
  AG 6 4 0 (0.44594849091596488631832925388305);
  AG 6 4 1 (0.10810301816807022736334149223390);
  AG 6 5 0 (0.44594849091596488631832925388305);
  AG 6 5 1 (0.44594849091596488631832925388305);
  AW 6 0 (0.5 * 0.10995174365532186763832632490021);
  AW 6 1 (0.5 * 0.10995174365532186763832632490021);
  AW 6 2 (0.5 * 0.10995174365532186763832632490021);
  AW 6 3 (0.5 * 0.22338158967801146569500700843312);
  AW 6 4 (0.5 * 0.22338158967801146569500700843312);
  AW 6 5 (0.5 * 0.22338158967801146569500700843312);
  AO 6 4%Z].

(** simplexquadrature.hh:190-212 *)
Definition triangleInit_5 : list Assign := [
  AG 7 0 0 (0.333333333333333333333333333333333);
  AG 7 0 1 (0.333333333333333333333333333333333);
  AG 7 1 0 (0.79742698535308732239802527616975);
  AG 7 1 1 (0.1012865073234563388009873619151);
  AG 7 2 0 (0.10128650732345633880098736191512);
  AG 7 2 1 (0.79742698535308732239802527616975);
  AG 7 3 0 (0.10128650732345633880098736191512);
  AG 7 3 1 (0.10128650732345633880098736191512);
  AG 7 4 0 (0.05971587178976982045911758097311);
  AG 7 4 1 (0.47014206410511508977044120951345);
  AG 7 5 0 (0.47014206410511508977044120951345);
  AG 7 5 1 (0.05971587178976982045911758097311);
  AG 7 6 0 (0.47014206410511508977044120951345);
  AG 7 6 1 (0.47014206410511508977044120951345);
  AW 7 0 (0.5 * 0.225);
  AW 7 1 (0.5 * 0.12593918054482715259568394550018);
  AW 7 2 (0.5 * 0.12593918054482715259568394550018);
  AW 7 3 (0.5 * 0.12593918054482715259568394550018);
  AW 7 4 (0.5 * 0.13239415278850618073764938783315);
  AW 7 5 (0.5 * 0.13239415278850618073764938783315);
  AW 7 6 (0.5 * 0.13239415278850618073764938783315);
  AO 7 5%Z].

(** simplexquadrature.hh:224-261 *)
Definition triangleInit_6 : list Assign := [
  AG 12 0 0 (0.063089014491502228340331602870819);
  AG 12 0 1 (0.063089014491502228340331602870819);
  AG 12 1 0 (0.063089014491502228340331602870819);
  AG 12 1 1 (0.87382197101699554331933679425836);
  AG 12 2 0 (0.87382197101699554331933679425836);
  AG 12 2 1 (0.063089014491502228340331602870819);
  AG 12 3 0 (0.24928674517091042129163855310702);
  AG 12 3 1 (0.24928674517091042129163855310702);
  AG 12 4 0 (0.24928674517091042129163855310702);
  AG 12 4 1 (0.50142650965817915741672289378596);
  AG 12 5 0 (0.50142650965817915741672289378596);
  AG 12 5 1 (0.24928674517091042129163855310702);
  AG 12 6 0 (0.053145049844816947353249671631398);
  AG 12 6 1 (0.31035245103378440541660773395655);
  AG 12 7 0 (0.053145049844816947353249671631398);
  AG 12 7 1 (0.63650249912139864723014259441205);
  AG 12 8 0 (0.31035245103378440541660773395655);
  AG 12 8 1 (0.053145049844816947353249671631398);
  AG 12 9 0 (0.31035245103378440541660773395655);
  AG 12 9 1 (0.63650249912139864723014259441205);
  AG 12 10 0 (0.63650249912139864723014259441205);
  AG 12 10 1 (0.053145049844816947353249671631398);
  AG 12 11 0 (0.63650249912139864723014259441205);
  AG 12 11 1 (0.31035245103378440541660773395655);
  AW 12 0 (0.5 * 0.050844906370206816920936809106869);
  AW 12 1 (0.5 * 0.050844906370206816920936809106869);
  AW 12 2 (0.5 * 0.050844906370206816920936809106869);
  AW 12 3 (0.5 * 0.11678627572637936602528961138558);
  AW 12 4 (0.5 * 0.11678627572637936602528961138558);
  AW 12 5 (0.5 * 0.11678627572637936602528961138558);
  AW 12 6 (0.5 * 0.082851075618373575193553456420442);
  AW 12 7 (0.5 * 0.082851075618373575193553456420442);
  AW 12 8 (0.5 * 0.082851075618373575193553456420442);
  AW 12 9 (0.5 * 0.082851075618373575193553456420442);
  AW 12 10 (0.5 * 0.082851075618373575193553456420442);
  AW 12 11 (0.5 * 0.082851075618373575193553456420442);
  AO 12 6%Z].

(** simplexquadrature.hh:272-309 *)
Definition triangleInit_7 : list Assign := [
  AG 12 0 0 (0.0623822650944021181736830009963499);
  AG 12 0 1 (0.0675178670739160854425571310508685);
  AG 12 1 0 (0.0675178670739160854425571310508685);
  AG 12 1 1 (0.870099867831681796383759867952782);
  AG 12 2 0 (0.870099867831681796383759867952782);
  AG 12 2 1 (0.0623822650944021181736830009963499);
  AG 12 3 0 (0.0552254566569266117374791902756449);
  AG 12 3 1 (0.321502493851981822666307849199202);
  AG 12 4 0 (0.321502493851981822666307849199202);
  AG 12 4 1 (0.623272049491091565596212960525153);
  AG 12 5 0 (0.623272049491091565596212960525153);
  AG 12 5 1 (0.0552254566569266117374791902756449);
  AG 12 6 0 (0.0343243029450971464696306424839376);
  AG 12 6 1 (0.660949196186735657611980310197799);
  AG 12 7 0 (0.660949196186735657611980310197799);
  AG 12 7 1 (0.304726500868167195918389047318263);
  AG 12 8 0 (0.304726500868167195918389047318263);
  AG 12 8 1 (0.0343243029450971464696306424839376);
  AG 12 9 0 (0.515842334353591779257463386826430);
  AG 12 9 1 (0.277716166976391782569581871393723);
  AG 12 10 0 (0.277716166976391782569581871393723);
  AG 12 10 1 (0.20644149867001643817295474177985);
  AG 12 11 0 (0.20644149867001643817295474177985);
  AG 12 11 1 (0.515842334353591779257463386826430);
  AW 12 0 (0.5 * 0.053034056314872502857508360921478);
  AW 12 1 (0.5 * 0.053034056314872502857508360921478);
  AW 12 2 (0.5 * 0.053034056314872502857508360921478);
  AW 12 3 (0.5 * 0.087762817428892110073539806278575);
  AW 12 4 (0.5 * 0.087762817428892110073539806278575);
  AW 12 5 (0.5 * 0.087762817428892110073539806278575);
  AW 12 6 (0.5 * 0.057550085569963171476890993800437);
  AW 12 7 (0.5 * 0.057550085569963171476890993800437);
  AW 12 8 (0.5 * 0.057550085569963171476890993800437);
  AW 12 9 (0.5 * 0.13498637401960554892539417233284);
  AW 12 10 (0.5 * 0.13498637401960554892539417233284);
  AW 12 11 (0.5 * 0.13498637401960554892539417233284);
  AO 12 7%Z].

(** simplexquadrature.hh:320-369 *)
Definition triangleInit_8 : list Assign := [
  AG 16 0 0 (0.33333333333333333333333333333333);
  AG 16 0 1 (0.33333333333333333333333333333333);
  AG 16 1 0 (0.17056930775176020662229350149146);
  AG 16 1 1 (0.17056930775176020662229350149146);
  AG 16 2 0 (0.17056930775176020662229350149146);
  AG 16 2 1 (0.65886138449647958675541299701707);
  AG 16 3 0 (0.65886138449647958675541299701707);
  AG 16 3 1 (0.17056930775176020662229350149146);
  AG 16 4 0 (0.050547228317030975458423550596599);
  AG 16 4 1 (0.050547228317030975458423550596599);
  AG 16 5 0 (0.050547228317030975458423550596599);
  AG 16 5 1 (0.89890554336593804908315289880680);
  AG 16 6 0 (0.89890554336593804908315289880680);
  AG 16 6 1 (0.050547228317030975458423550596599);
  AG 16 7 0 (0.45929258829272315602881551449417);
  AG 16 7 1 (0.45929258829272315602881551449417);
  AG 16 8 0 (0.45929258829272315602881551449417);
  AG 16 8 1 (0.08141482341455368794236897101166);
  AG 16 9 0 (0.08141482341455368794236897101166);
  AG 16 9 1 (0.45929258829272315602881551449417);
  AG 16 10 0 (0.72849239295540428124100037917606);
  AG 16 10 1 (0.26311282963463811342178578628464);
  AG 16 11 0 (0.72849239295540428124100037917606);
  AG 16 11 1 (0.00839477740995760533721383453930);
  AG 16 12 0 (0.26311282963463811342178578628464);
  AG 16 12 1 (0.72849239295540428124100037917606);
  AG 16 13 0 (0.26311282963463811342178578628464);
  AG 16 13 1 (0.00839477740995760533721383453930);
  AG 16 14 0 (0.00839477740995760533721383453930);
  AG 16 14 1 (0.72849239295540428124100037917606);
  AG 16 15 0 (0.00839477740995760533721383453930);
  AG 16 15 1 (0.26311282963463811342178578628464);
  AW 16 0 (0.5 * 0.14431560767778716825109111048906);
  AW 16 1 (0.5 * 0.10321737053471825028179155029213);
  AW 16 2 (0.5 * 0.10321737053471825028179155029213);
  AW 16 3 (0.5 * 0.10321737053471825028179155029213);
  AW 16 4 (0.5 * 0.032458497623198080310925928341780);
  AW 16 5 (0.5 * 0.032458497623198080310925928341780);
  AW 16 6 (0.5 * 0.032458497623198080310925928341780);
  AW 16 7 (0.5 * 0.095091634267284624793896104388584);
  AW 16 8 (0.5 * 0.095091634267284624793896104388584);
  AW 16 9 (0.5 * 0.095091634267284624793896104388584);
  AW 16 10 (0.5 * 0.027230314174434994264844690073909);
  AW 16 11 (0.5 * 0.027230314174434994264844690073909);
  AW 16 12 (0.5 * 0.027230314174434994264844690073909);
  AW 16 13 (0.5 * 0.027230314174434994264844690073909);
  AW 16 14 (0.5 * 0.027230314174434994264844690073909);
  AW 16 15 (0.5 * 0.027230314174434994264844690073909);
  AO 16 8%Z].

(** simplexquadrature.hh:381-439 *)
Definition triangleInit_9 : list Assign := [
  AG 19 0 0 (0.333333333333333333333333333333333);
  AG 19 0 1 (0.333333333333333333333333333333333);
  AG 19 1 0 (0.48968251919873762778370692483619);
  AG 19 1 1 (0.48968251919873762778370692483619);
  AG 19 2 0 (0.48968251919873762778370692483619);
  AG 19 2 1 (0.02063496160252474443258615032762);
  AG 19 3 0 (0.02063496160252474443258615032762);
  AG 19 3 1 (0.48968251919873762778370692483619);
  AG 19 4 0 (0.43708959149293663726993036443535);
  AG 19 4 1 (0.43708959149293663726993036443535);
  AG 19 5 0 (0.43708959149293663726993036443535);
  AG 19 5 1 (0.12582081701412672546013927112929);
  AG 19 6 0 (0.12582081701412672546013927112929);
  AG 19 6 1 (0.43708959149293663726993036443535);
  AG 19 7 0 (0.18820353561903273024096128046733);
  AG 19 7 1 (0.18820353561903273024096128046733);
  AG 19 8 0 (0.18820353561903273024096128046733);
  AG 19 8 1 (0.62359292876193453951807743906533);
  AG 19 9 0 (0.62359292876193453951807743906533);
  AG 19 9 1 (0.18820353561903273024096128046733);
  AG 19 10 0 (0.044729513394452709865106589966276);
  AG 19 10 1 (0.044729513394452709865106589966276);
  AG 19 11 0 (0.044729513394452709865106589966276);
  AG 19 11 1 (0.91054097321109458026978682006745);
  AG 19 12 0 (0.91054097321109458026978682006745);
  AG 19 12 1 (0.044729513394452709865106589966276);
  AG 19 13 0 (0.74119859878449802069007987352342);
  AG 19 13 1 (0.036838412054736283634817598783385);
  AG 19 14 0 (0.74119859878449802069007987352342);
  AG 19 14 1 (0.22196298916076569567510252769319);
  AG 19 15 0 (0.036838412054736283634817598783385);
  AG 19 15 1 (0.74119859878449802069007987352342);
  AG 19 16 0 (0.036838412054736283634817598783385);
  AG 19 16 1 (0.22196298916076569567510252769319);
  AG 19 17 0 (0.22196298916076569567510252769319);
  AG 19 17 1 (0.74119859878449802069007987352342);
  AG 19 18 0 (0.22196298916076569567510252769319);
  AG 19 18 1 (0.036838412054736283634817598783385);
  AW 19 0 (0.5 * 0.097135796282798833819241982507289);
  AW 19 1 (0.5 * 0.031334700227139070536854831287209);
  AW 19 2 (0.5 * 0.031334700227139070536854831287209);
  AW 19 3 (0.5 * 0.031334700227139070536854831287209);
  AW 19 4 (0.5 * 0.077827541004774279316739356299404);
  AW 19 5 (0.5 * 0.077827541004774279316739356299404);
  AW 19 6 (0.5 * 0.077827541004774279316739356299404);
  AW 19 7 (0.5 * 0.079647738927210253032891774264045);
  AW 19 8 (0.5 * 0.079647738927210253032891774264045);
  AW 19 9 (0.5 * 0.079647738927210253032891774264045);
  AW 19 10 (0.5 * 0.025577675658698031261678798559000);
  AW 19 11 (0.5 * 0.025577675658698031261678798559000);
  AW 19 12 (0.5 * 0.025577675658698031261678798559000);
  AW 19 13 (0.5 * 0.043283539377289377289377289377289);
  AW 19 14 (0.5 * 0.043283539377289377289377289377289);
  AW 19 15 (0.5 * 0.043283539377289377289377289377289);
  AW 19 16 (0.5 * 0.043283539377289377289377289377289);
  AW 19 17 (0.5 * 0.043283539377289377289377289377289);
  AW 19 18 (0.5 * 0.043283539377289377289377289377289);
  AO 19 9%Z].

(** simplexquadrature.hh:451-527 *)
Definition triangleInit_10 : list Assign := [
  AG 25 0 0 (0.333333333333333333333333333333333);
  AG 25 0 1 (0.333333333333333333333333333333333);
  AG 25 1 0 (0.42508621060209057296952951163804);
  AG 25 1 1 (0.42508621060209057296952951163804);
  AG 25 2 0 (0.42508621060209057296952951163804);
  AG 25 2 1 (0.14982757879581885406094097672391);
  AG 25 3 0 (0.14982757879581885406094097672391);
  AG 25 3 1 (0.42508621060209057296952951163804);
  AG 25 4 0 (0.023308867510000190714466386895980);
  AG 25 4 1 (0.023308867510000190714466386895980);
  AG 25 5 0 (0.023308867510000190714466386895980);
  AG 25 5 1 (0.95338226497999961857106722620804);
  AG 25 6 0 (0.95338226497999961857106722620804);
  AG 25 6 1 (0.023308867510000190714466386895980);
  AG 25 7 0 (0.62830740021349255642083766607883);
  AG 25 7 1 (0.22376697357697300622568649026820);
  AG 25 8 0 (0.62830740021349255642083766607883);
  AG 25 8 1 (0.14792562620953443735347584365296);
  AG 25 9 0 (0.22376697357697300622568649026820);
  AG 25 9 1 (0.62830740021349255642083766607883);
  AG 25 10 0 (0.22376697357697300622568649026820);
  AG 25 10 1 (0.14792562620953443735347584365296);
  AG 25 11 0 (0.14792562620953443735347584365296);
  AG 25 11 1 (0.62830740021349255642083766607883);
  AG 25 12 0 (0.14792562620953443735347584365296);
  AG 25 12 1 (0.22376697357697300622568649026820);
  AG 25 13 0 (0.61131382618139764891875500225390);
  AG 25 13 1 (0.35874014186443146457815530072385);
  AG 25 14 0 (0.61131382618139764891875500225390);
  AG 25 14 1 (0.02994603195417088650308969702225);
  AG 25 15 0 (0.35874014186443146457815530072385);
  AG 25 15 1 (0.61131382618139764891875500225390);
  AG 25 16 0 (0.35874014186443146457815530072385);
  AG 25 16 1 (0.02994603195417088650308969702225);
  AG 25 17 0 (0.02994603195417088650308969702225);
  AG 25 17 1 (0.61131382618139764891875500225390);
  AG 25 18 0 (0.02994603195417088650308969702225);
  AG 25 18 1 (0.35874014186443146457815530072385);
  AG 25 19 0 (0.82107206998562937337354441347218);
  AG 25 19 1 (0.14329537042686714530585663061732);
  AG 25 20 0 (0.82107206998562937337354441347218);
  AG 25 20 1 (0.03563255958750348132059895591050);
  AG 25 21 0 (0.14329537042686714530585663061732);
  AG 25 21 1 (0.82107206998562937337354441347218);
  AG 25 22 0 (0.14329537042686714530585663061732);
  AG 25 22 1 (0.03563255958750348132059895591050);
  AG 25 23 0 (0.03563255958750348132059895591050);
  AG 25 23 1 (0.82107206998562937337354441347218);
  AG 25 24 0 (0.03563255958750348132059895591050);
  AG 25 24 1 (0.14329537042686714530585663061732);
  AW 25 0 (0.5 * 0.079894504741239707831247045213386);
  AW 25 1 (0.5 * 0.071123802232377334639291287398658);
  AW 25 2 (0.5 * 0.071123802232377334639291287398658);
  AW 25 3 (0.5 * 0.071123802232377334639291287398658);
  AW 25 4 (0.5 * 0.0082238186904641955186466203624719);
  AW 25 5 (0.5 * 0.0082238186904641955186466203624719);
  AW 25 6 (0.5 * 0.0082238186904641955186466203624719);
  AW 25 7 (0.5 * 0.045430592296170018007073629243933);
  AW 25 8 (0.5 * 0.045430592296170018007073629243933);
  AW 25 9 (0.5 * 0.045430592296170018007073629243933);
  AW 25 10 (0.5 * 0.045430592296170018007073629243933);
  AW 25 11 (0.5 * 0.045430592296170018007073629243933);
  AW 25 12 (0.5 * 0.045430592296170018007073629243933);
  AW 25 13 (0.5 * 0.037359856234305276826236499001975);
  AW 25 14 (0.5 * 0.037359856234305276826236499001975);
  AW 25 15 (0.5 * 0.037359856234305276826236499001975);
  AW 25 16 (0.5 * 0.037359856234305276826236499001975);
  AW 25 17 (0.5 * 0.037359856234305276826236499001975);
  AW 25 18 (0.5 * 0.037359856234305276826236499001975);
  AW 25 19 (0.5 * 0.030886656884563988782513077004629);
  AW 25 20 (0.5 * 0.030886656884563988782513077004629);
  AW 25 21 (0.5 * 0.030886656884563988782513077004629);
  AW 25 22 (0.5 * 0.030886656884563988782513077004629);
  AW 25 23 (0.5 * 0.030886656884563988782513077004629);
  AW 25 24 (0.5 * 0.030886656884563988782513077004629);
  AO 25 10%Z].

(** simplexquadrature.hh:539-632 *)
Definition triangleInit_11 : list Assign := [
  AG 28 0 0 (0.858870281282636704039173938058347);
  AG 28 0 1 (0.141129718717363295960826061941652);
  AG 28 1 0 (0.858870281282636704039173938058347);
  AG 28 1 1 (0.0);
  AG 28 2 0 (0.141129718717363295960826061941652);
  AG 28 2 1 (0.858870281282636704039173938058347);
  AG 28 3 0 (0.141129718717363295960826061941652);
  AG 28 3 1 (0.0);
  AG 28 4 0 (0.0);
  AG 28 4 1 (0.858870281282636704039173938058347);
  AG 28 5 0 (0.0);
  AG 28 5 1 (0.141129718717363295960826061941652);
  AG 28 6 0 (0.333333333333333333333333333333333);
  AG 28 6 1 (0.333333333333333333333333333333333);
  AG 28 7 0 (0.025989140928287395260032485498841);
  AG 28 7 1 (0.025989140928287395260032485498841);
  AG 28 8 0 (0.025989140928287395260032485498841);
  AG 28 8 1 (0.94802171814342520947993502900232);
  AG 28 9 0 (0.94802171814342520947993502900232);
  AG 28 9 1 (0.025989140928287395260032485498841);
  AG 28 10 0 (0.094287502647922495630569776275405);
  AG 28 10 1 (0.094287502647922495630569776275405);
  AG 28 11 0 (0.094287502647922495630569776275405);
  AG 28 11 1 (0.81142499470415500873886044744919);
  AG 28 12 0 (0.81142499470415500873886044744919);
  AG 28 12 1 (0.094287502647922495630569776275405);
  AG 28 13 0 (0.49463677501721381374163260230644);
  AG 28 13 1 (0.49463677501721381374163260230644);
  AG 28 14 0 (0.49463677501721381374163260230644);
  AG 28 14 1 (0.01072644996557237251673479538713);
  AG 28 15 0 (0.01072644996557237251673479538713);
  AG 28 15 1 (0.49463677501721381374163260230644);
  AG 28 16 0 (0.20734338261451133345293402411297);
  AG 28 16 1 (0.20734338261451133345293402411297);
  AG 28 17 0 (0.20734338261451133345293402411297);
  AG 28 17 1 (0.58531323477097733309413195177407);
  AG 28 18 0 (0.58531323477097733309413195177407);
  AG 28 18 1 (0.20734338261451133345293402411297);
  AG 28 19 0 (0.43890780570049209506106538163613);
  AG 28 19 1 (0.43890780570049209506106538163613);
  AG 28 20 0 (0.43890780570049209506106538163613);
  AG 28 20 1 (0.12218438859901580987786923672775);
  AG 28 21 0 (0.12218438859901580987786923672775);
  AG 28 21 1 (0.43890780570049209506106538163613);
  AG 28 22 0 (0.67793765488259040154212614118875);
  AG 28 22 1 (0.044841677589130443309052391468801);
  AG 28 23 0 (0.67793765488259040154212614118875);
  AG 28 23 1 (0.27722066752827915514882146734245);
  AG 28 24 0 (0.044841677589130443309052391468801);
  AG 28 24 1 (0.67793765488259040154212614118875);
  AG 28 25 0 (0.044841677589130443309052391468801);
  AG 28 25 1 (0.27722066752827915514882146734245);
  AG 28 26 0 (0.27722066752827915514882146734245);
  AG 28 26 1 (0.67793765488259040154212614118875);
  AG 28 27 0 (0.27722066752827915514882146734245);
  AG 28 27 1 (0.044841677589130443309052391468801);
  AW 28 0 (0.5 * 0.0073623837833005542642588950473806);
  AW 28 1 (0.5 * 0.0073623837833005542642588950473806);
  AW 28 2 (0.5 * 0.0073623837833005542642588950473806);
  AW 28 3 (0.5 * 0.0073623837833005542642588950473806);
  AW 28 4 (0.5 * 0.0073623837833005542642588950473806);
  AW 28 5 (0.5 * 0.0073623837833005542642588950473806);
  AW 28 6 (0.5 * 0.087977301162232238798093169321456);
  AW 28 7 (0.5 * 0.0087443115537360230495164287998252);
  AW 28 8 (0.5 * 0.0087443115537360230495164287998252);
  AW 28 9 (0.5 * 0.0087443115537360230495164287998252);
  AW 28 10 (0.5 * 0.038081571993934937515024339435614);
  AW 28 11 (0.5 * 0.038081571993934937515024339435614);
  AW 28 12 (0.5 * 0.038081571993934937515024339435614);
  AW 28 13 (0.5 * 0.018855448056131292058476782591115);
  AW 28 14 (0.5 * 0.018855448056131292058476782591115);
  AW 28 15 (0.5 * 0.018855448056131292058476782591115);
  AW 28 16 (0.5 * 0.072159697544739526124029988586463);
  AW 28 17 (0.5 * 0.072159697544739526124029988586463);
  AW 28 18 (0.5 * 0.072159697544739526124029988586463);
  AW 28 19 (0.5 * 0.069329138705535899841765650903814);
  AW 28 20 (0.5 * 0.069329138705535899841765650903814);
  AW 28 21 (0.5 * 0.069329138705535899841765650903814);
  AW 28 22 (0.5 * 0.041056315429288566641652314907294);
  AW 28 23 (0.5 * 0.041056315429288566641652314907294);
  AW 28 24 (0.5 * 0.041056315429288566641652314907294);
  AW 28 25 (0.5 * 0.041056315429288566641652314907294);
  AW 28 26 (0.5 * 0.041056315429288566641652314907294);
  AW 28 27 (0.5 * 0.041056315429288566641652314907294);
  AO 28 11%Z].

(** simplexquadrature.hh:644-744 *)
Definition triangleInit_12 : list Assign := [
  AG 33 0 0 (0.02356522045239);
  AG 33 0 1 (0.488217389773805);
  AG 33 1 0 (0.488217389773805);
  AG 33 1 1 (0.02356522045239);
  AG 33 2 0 (0.488217389773805);
  AG 33 2 1 (0.488217389773805);
  AG 33 3 0 (0.43972439229446);
  AG 33 3 1 (0.43972439229446);
  AG 33 4 0 (0.43972439229446);
  AG 33 4 1 (0.120551215411079);
  AG 33 5 0 (0.120551215411079);
  AG 33 5 1 (0.43972439229446);
  AG 33 6 0 (0.271210385012116);
  AG 33 6 1 (0.271210385012116);
  AG 33 7 0 (0.271210385012116);
  AG 33 7 1 (0.457579229975768);
  AG 33 8 0 (0.457579229975768);
  AG 33 8 1 (0.271210385012116);
  AG 33 9 0 (0.127576145541586);
  AG 33 9 1 (0.127576145541586);
  AG 33 10 0 (0.127576145541586);
  AG 33 10 1 (0.7448477089168279);
  AG 33 11 0 (0.7448477089168279);
  AG 33 11 1 (0.127576145541586);
  AG 33 12 0 (0.02131735045321);
  AG 33 12 1 (0.02131735045321);
  AG 33 13 0 (0.02131735045321);
  AG 33 13 1 (0.9573652990935799);
  AG 33 14 0 (0.9573652990935799);
  AG 33 14 1 (0.02131735045321);
  AG 33 15 0 (0.115343494534698);
  AG 33 15 1 (0.275713269685514);
  AG 33 16 0 (0.115343494534698);
  AG 33 16 1 (0.6089432357797879);
  AG 33 17 0 (0.275713269685514);
  AG 33 17 1 (0.115343494534698);
  AG 33 18 0 (0.275713269685514);
  AG 33 18 1 (0.6089432357797879);
  AG 33 19 0 (0.6089432357797879);
  AG 33 19 1 (0.115343494534698);
  AG 33 20 0 (0.6089432357797879);
  AG 33 20 1 (0.275713269685514);
  AG 33 21 0 (0.022838332222257);
  AG 33 21 1 (0.28132558098994);
  AG 33 22 0 (0.022838332222257);
  AG 33 22 1 (0.6958360867878031);
  AG 33 23 0 (0.28132558098994);
  AG 33 23 1 (0.022838332222257);
  AG 33 24 0 (0.28132558098994);
  AG 33 24 1 (0.6958360867878031);
  AG 33 25 0 (0.6958360867878031);
  AG 33 25 1 (0.022838332222257);
  AG 33 26 0 (0.6958360867878031);
  AG 33 26 1 (0.28132558098994);
  AG 33 27 0 (0.02573405054833);
  AG 33 27 1 (0.116251915907597);
  AG 33 28 0 (0.02573405054833);
  AG 33 28 1 (0.858014033544073);
  AG 33 29 0 (0.116251915907597);
  AG 33 29 1 (0.02573405054833);
  AG 33 30 0 (0.116251915907597);
  AG 33 30 1 (0.858014033544073);
  AG 33 31 0 (0.858014033544073);
  AG 33 31 1 (0.02573405054833);
  AG 33 32 0 (0.858014033544073);
  AG 33 32 1 (0.116251915907597);
  AW 33 0 (0.5 * 0.025731066440455);
  AW 33 1 (0.5 * 0.025731066440455);
  AW 33 2 (0.5 * 0.025731066440455);
  AW 33 3 (0.5 * 0.043692544538038);
  AW 33 4 (0.5 * 0.043692544538038);
  AW 33 5 (0.5 * 0.043692544538038);
  AW 33 6 (0.5 * 0.062858224217885);
  AW 33 7 (0.5 * 0.062858224217885);
  AW 33 8 (0.5 * 0.062858224217885);
  AW 33 9 (0.5 * 0.034796112930709);
  AW 33 10 (0.5 * 0.034796112930709);
  AW 33 11 (0.5 * 0.034796112930709);
  AW 33 12 (0.5 * 0.006166261051559);
  AW 33 13 (0.5 * 0.006166261051559);
  AW 33 14 (0.5 * 0.006166261051559);
  AW 33 15 (0.5 * 0.040371557766381);
  AW 33 16 (0.5 * 0.040371557766381);
  AW 33 17 (0.5 * 0.040371557766381);
  AW 33 18 (0.5 * 0.040371557766381);
  AW 33 19 (0.5 * 0.040371557766381);
  AW 33 20 (0.5 * 0.040371557766381);
  AW 33 21 (0.5 * 0.022356773202303);
  AW 33 22 (0.5 * 0.022356773202303);
  AW 33 23 (0.5 * 0.022356773202303);
  AW 33 24 (0.5 * 0.022356773202303);
  AW 33 25 (0.5 * 0.022356773202303);
  AW 33 26 (0.5 * 0.022356773202303);
  AW 33 27 (0.5 * 0.017316231108659);
  AW 33 28 (0.5 * 0.017316231108659);
  AW 33 29 (0.5 * 0.017316231108659);
  AW 33 30 (0.5 * 0.017316231108659);
  AW 33 31 (0.5 * 0.017316231108659);
  AW 33 32 (0.5 * 0.017316231108659);
  AO 33 12%Z].

(** simplexquadrature.hh:87-745 *)
Definition triangleInit : list Assign :=
  triangleInit_0 ++ triangleInit_1 ++ triangleInit_2 ++ triangleInit_3 ++ triangleInit_4 ++ triangleInit_5 ++ triangleInit_6 ++ triangleInit_7 ++ triangleInit_8 ++ triangleInit_9 ++ triangleInit_10 ++ triangleInit_11 ++ triangleInit_12.

(** simplexquadrature.hh:878 *)
Definition tet_m_4_a : Q := 0.585410196624968500.
(** simplexquadrature.hh:879 *)
Definition tet_m_4_b : Q := 0.138196601125010500.
(** simplexquadrature.hh:948 *)
Definition tet_s_1 : Q := 0.09197107805272303279.
(** simplexquadrature.hh:949 *)
Definition tet_s_2 : Q := 0.31979362782962990839.
(** simplexquadrature.hh:950 *)
Definition tet_t_1 : Q := 0.72408676584183090164.
(** simplexquadrature.hh:951 *)
Definition tet_t_2 : Q := 0.04061911651111027484.
(** simplexquadrature.hh:952 *)
Definition tet_u : Q := 0.05635083268962915574.
(** simplexquadrature.hh:953 *)
Definition tet_v : Q := 0.44364916731037084426.
(** simplexquadrature.hh:954 *)
Definition tet_A : Q := 0.019753086419753086420.
(** simplexquadrature.hh:955 *)
Definition tet_B_1 : Q := 0.011989513963169770001.
(** simplexquadrature.hh:956 *)
Definition tet_B_2 : Q := 0.011511367871045397547.
(** simplexquadrature.hh:957 *)
Definition tet_C : Q := 0.0088183421516754850088.
(** simplexquadrature.hh:850-850 *)
Definition tetrahedronInit_0 : list Assign := [
  AO 0 0%Z].

(** simplexquadrature.hh:861-866 *)
Definition tetrahedronInit_1 : list Assign := [
  AG 1 0 0 (0.25);
  AG 1 0 1 (0.25);
  AG 1 0 2 (0.25);
  AW 1 0 (1.0 / 6.0);
  AO 1 1%Z].

(** simplexquadrature.hh:880-892 *)
Definition tetrahedronInit_2 : list Assign := [
  AV 4 0 (tet_m_4_b);
  AV 4 1 (tet_m_4_b);
  AV 4 2 (tet_m_4_b);
  AV 4 3 (tet_m_4_b);
  AG 4 0 0 (tet_m_4_a);
  AG 4 1 1 (tet_m_4_a);
  AG 4 2 2 (tet_m_4_a);
  AW 4 0 (1.0 / 4.0 / 6.0);
  AW 4 1 (1.0 / 4.0 / 6.0);
  AW 4 2 (1.0 / 4.0 / 6.0);
  AW 4 3 (1.0 / 4.0 / 6.0);
  AO 4 2%Z].

(** simplexquadrature.hh:904-936 *)
Definition tetrahedronInit_3 : list Assign := [
  AG 8 0 0 (0.0);
  AG 8 0 1 (0.0);
  AG 8 0 2 (0.0);
  AG 8 1 0 (1.0);
  AG 8 1 1 (0.0);
  AG 8 1 2 (0.0);
  AG 8 2 0 (0.0);
  AG 8 2 1 (1.0);
  AG 8 2 2 (0.0);
  AG 8 3 0 (0.0);
  AG 8 3 1 (0.0);
  AG 8 3 2 (1.0);
  AG 8 4 0 (1.0 / 3.0);
  AG 8 4 1 (1.0 / 3.0);
  AG 8 4 2 (0.0);
  AG 8 5 0 (1.0 / 3.0);
  AG 8 5 1 (0.0);
  AG 8 5 2 (1.0 / 3.0);
  AG 8 6 0 (0.0);
  AG 8 6 1 (1.0 / 3.0);
  AG 8 6 2 (1.0 / 3.0);
  AG 8 7 0 (1.0 / 3.0);
  AG 8 7 1 (1.0 / 3.0);
  AG 8 7 2 (1.0 / 3.0);
  AW 8 0 (0.025 / 6.0);
  AW 8 1 (0.025 / 6.0);
  AW 8 2 (0.025 / 6.0);
  AW 8 3 (0.025 / 6.0);
  AW 8 4 (0.225 / 6.0);
  AW 8 5 (0.225 / 6.0);
  AW 8 6 (0.225 / 6.0);
  AW 8 7 (0.225 / 6.0);
  AO 8 3%Z].

(** simplexquadrature.hh:960-1021 *)
Definition tetrahedronInit_4 : list Assign := [
  AG 15 0 0 (0.25);
  AG 15 0 1 (0.25);
  AG 15 0 2 (0.25);
  AG 15 1 0 (tet_s_1);
  AG 15 1 1 (tet_s_1);
  AG 15 1 2 (tet_s_1);
  AG 15 2 0 (tet_t_1);
  AG 15 2 1 (tet_s_1);
  AG 15 2 2 (tet_s_1);
  AG 15 3 0 (tet_s_1);
  AG 15 3 1 (tet_t_1);
  AG 15 3 2 (tet_s_1);
  AG 15 4 0 (tet_s_1);
  AG 15 4 1 (tet_s_1);
  AG 15 4 2 (tet_t_1);
  AG 15 5 0 (tet_s_2);
  AG 15 5 1 (tet_s_2);
  AG 15 5 2 (tet_s_2);
  AG 15 6 0 (tet_t_2);
  AG 15 6 1 (tet_s_2);
  AG 15 6 2 (tet_s_2);
  AG 15 7 0 (tet_s_2);
  AG 15 7 1 (tet_t_2);
  AG 15 7 2 (tet_s_2);
  AG 15 8 0 (tet_s_2);
  AG 15 8 1 (tet_s_2);
  AG 15 8 2 (tet_t_2);
  AG 15 9 0 (tet_v);
  AG 15 9 1 (tet_u);
  AG 15 9 2 (tet_u);
  AG 15 10 0 (tet_u);
  AG 15 10 1 (tet_v);
  AG 15 10 2 (tet_u);
  AG 15 11 0 (tet_u);
  AG 15 11 1 (tet_u);
  AG 15 11 2 (tet_v);
  AG 15 12 0 (tet_v);
  AG 15 12 1 (tet_v);
  AG 15 12 2 (tet_u);
  AG 15 13 0 (tet_v);
  AG 15 13 1 (tet_u);
  AG 15 13 2 (tet_v);
  AG 15 14 0 (tet_u);
  AG 15 14 1 (tet_v);
  AG 15 14 2 (tet_v);
  AW 15 0 (tet_A);
  AW 15 1 (tet_B_1);
  AW 15 2 (tet_B_1);
  AW 15 3 (tet_B_1);
  AW 15 4 (tet_B_1);
  AW 15 5 (tet_B_2);
  AW 15 6 (tet_B_2);
  AW 15 7 (tet_B_2);
  AW 15 8 (tet_B_2);
  AW 15 9 (tet_C);
  AW 15 10 (tet_C);
  AW 15 11 (tet_C);
  AW 15 12 (tet_C);
  AW 15 13 (tet_C);
  AW 15 14 (tet_C);
  AO 15 5%Z].

(** simplexquadrature.hh:850-1023 *)
Definition tetrahedronInit : list Assign :=
  tetrahedronInit_0 ++ tetrahedronInit_1 ++ tetrahedronInit_2 ++ tetrahedronInit_3 ++ tetrahedronInit_4.

(** prismquadrature.hh:70-70 *)
Definition prismInit_0 : list Assign := [
  AO 0 0%Z].

(** prismquadrature.hh:74-105 *)
Definition prismInit_1 : list Assign := [
  AG 6 0 0 (0.0);
  AG 6 0 1 (0.0);
  AG 6 0 2 (0.0);
  AG 6 1 0 (1.0);
  AG 6 1 1 (0.0);
  AG 6 1 2 (0.0);
  AG 6 2 0 (0.0);
  AG 6 2 1 (1.0);
  AG 6 2 2 (0.0);
  AG 6 3 0 (0.0);
  AG 6 3 1 (0.0);
  AG 6 3 2 (1.0);
  AG 6 4 0 (1.0);
  AG 6 4 1 (0.0);
  AG 6 4 2 (1.0);
  AG 6 5 0 (0.0);
  AG 6 5 1 (0.1);
  AG 6 5 2 (1.0);
  AW 6 0 (0.16666666666666666 / 2.0);
  AW 6 1 (0.16666666666666666 / 2.0);
  AW 6 2 (0.16666666666666666 / 2.0);
  AW 6 3 (0.16666666666666666 / 2.0);
  AW 6 4 (0.16666666666666666 / 2.0);
  AW 6 5 (0.16666666666666666 / 2.0);
  AO 6 0%Z].

(** prismquadrature.hh:110-141 *)
Definition prismInit_2 : list Assign := [
  AG 6 0 0 (0.66666666666666666);
  AG 6 0 1 (0.16666666666666666);
  AG 6 0 2 (0.211324865405187);
  AG 6 1 0 (0.16666666666666666);
  AG 6 1 1 (0.66666666666666666);
  AG 6 1 2 (0.211324865405187);
  AG 6 2 0 (0.16666666666666666);
  AG 6 2 1 (0.16666666666666666);
  AG 6 2 2 (0.211324865405187);
  AG 6 3 0 (0.66666666666666666);
  AG 6 3 1 (0.16666666666666666);
  AG 6 3 2 (0.788675134594813);
  AG 6 4 0 (0.16666666666666666);
  AG 6 4 1 (0.66666666666666666);
  AG 6 4 2 (0.788675134594813);
  AG 6 5 0 (0.16666666666666666);
  AG 6 5 1 (0.16666666666666666);
  AG 6 5 2 (0.788675134594813);
  AW 6 0 (0.16666666666666666 / 2.0);
  AW 6 1 (0.16666666666666666 / 2.0);
  AW 6 2 (0.16666666666666666 / 2.0);
  AW 6 3 (0.16666666666666666 / 2.0);
  AW 6 4 (0.16666666666666666 / 2.0);
  AW 6 5 (0.16666666666666666 / 2.0);
  AO 6 2%Z].

(** prismquadrature.hh:70-143 *)
Definition prismInit : list Assign :=
  prismInit_0 ++ prismInit_1 ++ prismInit_2.

