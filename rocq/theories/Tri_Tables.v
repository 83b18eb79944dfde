(** Tables of the triangle quadratures, generated from
    libdiskpp/include/diskpp/quadratures/bits/quad_raw_triangle.hpp (the printed
    decimals are read as exact rationals).  Tables that the source repeats word
    for word (18 = 19, 20 = 21, 22 = ... = 25, 26 = ... = 30) are aliases. *)
From Coq Require Import List QArith.
Import ListNotations.
Open Scope Q_scope.

(** quad_raw_triangle.hpp:27-31 {perms, {l0, l1, l2}, weight} *)
Record dunavant_point := DP { dp_perms : nat; dp_l0 : Q; dp_l1 : Q; dp_l2 : Q; dp_weight : Q }.
(** quad_raw_triangle.hpp:354-357 {{l0, l1}, weight} *)
Record triangle_gauss_point := TG { tg_l0 : Q; tg_l1 : Q; tg_weight : Q }.

(** quad_raw_triangle.hpp:33-35 *)
Definition dunavant_rule_1 : list dunavant_point := [
  DP 1 0.333333333333333 0.333333333333333 0.333333333333333 1.000000000000000 ].
(** quad_raw_triangle.hpp:37-39 *)
Definition dunavant_rule_2 : list dunavant_point := [
  DP 3 0.666666666666667 0.166666666666667 0.166666666666667 0.333333333333333 ].
(** quad_raw_triangle.hpp:41-44 *)
Definition dunavant_rule_3 : list dunavant_point := [
  DP 1 0.333333333333333 0.333333333333333 0.333333333333333 (-0.562500000000000);
  DP 3 0.600000000000000 0.200000000000000 0.200000000000000 0.520833333333333 ].
(** quad_raw_triangle.hpp:46-49 *)
Definition dunavant_rule_4 : list dunavant_point := [
  DP 3 0.108103018168070 0.445948490915965 0.445948490915965 0.223381589678011;
  DP 3 0.816847572980459 0.091576213509771 0.091576213509771 0.109951743655322 ].
(** quad_raw_triangle.hpp:51-55 *)
Definition dunavant_rule_5 : list dunavant_point := [
  DP 1 0.333333333333333 0.333333333333333 0.333333333333333 0.225000000000000;
  DP 3 0.059715871789770 0.470142064105115 0.470142064105115 0.132394152788506;
  DP 3 0.797426985353087 0.101286507323456 0.101286507323456 0.125939180544827 ].
(** quad_raw_triangle.hpp:57-61 *)
Definition dunavant_rule_6 : list dunavant_point := [
  DP 3 0.501426509658179 0.249286745170910 0.249286745170910 0.116786275726379;
  DP 3 0.873821971016996 0.063089014491502 0.063089014491502 0.050844906370207;
  DP 6 0.053145049844817 0.310352451033784 0.636502499121399 0.082851075618374 ].
(** quad_raw_triangle.hpp:63-68 *)
Definition dunavant_rule_7 : list dunavant_point := [
  DP 1 0.333333333333333 0.333333333333333 0.333333333333333 (-0.149570044467682);
  DP 3 0.479308067841920 0.260345966079040 0.260345966079040 0.175615257433208;
  DP 3 0.869739794195568 0.065130102902216 0.065130102902216 0.053347235608838;
  DP 6 0.048690315425316 0.312865496004874 0.638444188569810 0.077113760890257 ].
(** quad_raw_triangle.hpp:70-76 *)
Definition dunavant_rule_8 : list dunavant_point := [
  DP 1 0.333333333333333 0.333333333333333 0.333333333333333 0.144315607677787;
  DP 3 0.081414823414554 0.459292588292723 0.459292588292723 0.095091634267285;
  DP 3 0.658861384496480 0.170569307751760 0.170569307751760 0.103217370534718;
  DP 3 0.898905543365938 0.050547228317031 0.050547228317031 0.032458497623198;
  DP 6 0.008394777409958 0.263112829634638 0.728492392955404 0.027230314174435 ].
(** quad_raw_triangle.hpp:78-85 *)
Definition dunavant_rule_9 : list dunavant_point := [
  DP 1 0.333333333333333 0.333333333333333 0.333333333333333 0.097135796282799;
  DP 3 0.020634961602525 0.489682519198738 0.489682519198738 0.031334700227139;
  DP 3 0.125820817014127 0.437089591492937 0.437089591492937 0.077827541004774;
  DP 3 0.623592928761935 0.188203535619033 0.188203535619033 0.079647738927210;
  DP 3 0.910540973211095 0.044729513394453 0.044729513394453 0.025577675658698;
  DP 6 0.036838412054736 0.221962989160766 0.741198598784498 0.043283539377289 ].
(** quad_raw_triangle.hpp:87-94 *)
Definition dunavant_rule_10 : list dunavant_point := [
  DP 1 0.333333333333333 0.333333333333333 0.333333333333333 0.090817990382754;
  DP 3 0.028844733232685 0.485577633383657 0.485577633383657 0.036725957756467;
  DP 3 0.781036849029926 0.109481575485037 0.109481575485037 0.045321059435528;
  DP 6 0.141707219414880 0.307939838764121 0.550352941820999 0.072757916845420;
  DP 6 0.025003534762686 0.246672560639903 0.728323904597411 0.028327242531057;
  DP 6 0.009540815400299 0.066803251012200 0.923655933587500 0.009421666963733 ].
(** quad_raw_triangle.hpp:96-104 *)
Definition dunavant_rule_11 : list dunavant_point := [
  DP 3 (-0.069222096541517) 0.534611048270758 0.534611048270758 0.000927006328961;
  DP 3 0.202061394068290 0.398969302965855 0.398969302965855 0.077149534914813;
  DP 3 0.593380199137435 0.203309900431282 0.203309900431282 0.059322977380774;
  DP 3 0.761298175434837 0.119350912282581 0.119350912282581 0.036184540503418;
  DP 3 0.935270103777448 0.032364948111276 0.032364948111276 0.013659731002678;
  DP 6 0.050178138310495 0.356620648261293 0.593201213428213 0.052337111962204;
  DP 6 0.021022016536166 0.171488980304042 0.807489003159792 0.020707659639141 ].
(** quad_raw_triangle.hpp:106-115 *)
Definition dunavant_rule_12 : list dunavant_point := [
  DP 3 0.023565220452390 0.488217389773805 0.488217389773805 0.025731066440455;
  DP 3 0.120551215411079 0.439724392294460 0.439724392294460 0.043692544538038;
  DP 3 0.457579229975768 0.271210385012116 0.271210385012116 0.062858224217885;
  DP 3 0.744847708916828 0.127576145541586 0.127576145541586 0.034796112930709;
  DP 3 0.957365299093579 0.021317350453210 0.021317350453210 0.006166261051559;
  DP 6 0.115343494534698 0.275713269685514 0.608943235779788 0.040371557766381;
  DP 6 0.022838332222257 0.281325580989940 0.695836086787803 0.022356773202303;
  DP 6 0.025734050548330 0.116251915907597 0.858014033544073 0.017316231108659 ].
(** quad_raw_triangle.hpp:117-128 *)
Definition dunavant_rule_13 : list dunavant_point := [
  DP 1 0.333333333333333 0.333333333333333 0.333333333333333 0.052520923400802;
  DP 3 0.009903630120591 0.495048184939705 0.495048184939705 0.011280145209330;
  DP 3 0.062566729780852 0.468716635109574 0.468716635109574 0.031423518362454;
  DP 3 0.170957326397447 0.414521336801277 0.414521336801277 0.047072502504194;
  DP 3 0.541200855914337 0.229399572042831 0.229399572042831 0.047363586536355;
  DP 3 0.771151009607340 0.114424495196330 0.114424495196330 0.031167529045794;
  DP 3 0.950377217273082 0.024811391363459 0.024811391363459 0.007975771465074;
  DP 6 0.094853828379579 0.268794997058761 0.636351174561660 0.036848402728732;
  DP 6 0.018100773278807 0.291730066734288 0.690169159986905 0.017401463303822;
  DP 6 0.022233076674090 0.126357385491669 0.851409537834241 0.015521786839045 ].
(** quad_raw_triangle.hpp:130-141 *)
Definition dunavant_rule_14 : list dunavant_point := [
  DP 3 0.022072179275643 0.488963910362179 0.488963910362179 0.021883581369429;
  DP 3 0.164710561319092 0.417644719340454 0.417644719340454 0.032788353544125;
  DP 3 0.453044943382323 0.273477528308839 0.273477528308839 0.051774104507292;
  DP 3 0.645588935174913 0.177205532412543 0.177205532412543 0.042162588736993;
  DP 3 0.876400233818255 0.061799883090873 0.061799883090873 0.014433699669777;
  DP 3 0.961218077502598 0.019390961248701 0.019390961248701 0.004923403602400;
  DP 6 0.057124757403648 0.172266687821356 0.770608554774996 0.024665753212564;
  DP 6 0.092916249356972 0.336861459796345 0.570222290846683 0.038571510787061;
  DP 6 0.014646950055654 0.298372882136258 0.686980167808088 0.014436308113534;
  DP 6 0.001268330932872 0.118974497696957 0.879757171370171 0.005010228838501 ].
(** quad_raw_triangle.hpp:143-155 *)
Definition dunavant_rule_15 : list dunavant_point := [
  DP 3 (-0.013945833716486) 0.506972916858243 0.506972916858243 0.001916875642849;
  DP 3 0.137187291433955 0.431406354283023 0.431406354283023 0.044249027271145;
  DP 3 0.444612710305711 0.277693644847144 0.277693644847144 0.051186548718852;
  DP 3 0.747070217917492 0.126464891041254 0.126464891041254 0.023687735870688;
  DP 3 0.858383228050628 0.070808385974686 0.070808385974686 0.013289775690021;
  DP 3 0.962069659517853 0.018965170241073 0.018965170241073 0.004748916608192;
  DP 6 0.133734161966621 0.261311371140087 0.604954466893291 0.038550072599593;
  DP 6 0.036366677396917 0.388046767090269 0.575586555512814 0.027215814320624;
  DP 6 (-0.010174883126571) 0.285712220049916 0.724462663076655 0.002182077366797;
  DP 6 0.036843869875878 0.215599664072284 0.747556466051838 0.021505319847731;
  DP 6 0.012459809331199 0.103575616576386 0.883964574092416 0.007673942631049 ].
(** quad_raw_triangle.hpp:157-171 *)
Definition dunavant_rule_16 : list dunavant_point := [
  DP 1 0.333333333333333 0.333333333333333 0.333333333333333 0.046875697427642;
  DP 3 0.005238916103123 0.497380541948438 0.497380541948438 0.006405878578585;
  DP 3 0.173061122901295 0.413469438549352 0.413469438549352 0.041710296739387;
  DP 3 0.059082801866017 0.470458599066991 0.470458599066991 0.026891484250064;
  DP 3 0.518892500060958 0.240553749969521 0.240553749969521 0.042132522761650;
  DP 3 0.704068411554854 0.147965794222573 0.147965794222573 0.030000266842773;
  DP 3 0.849069624685052 0.075465187657474 0.075465187657474 0.014200098925024;
  DP 3 0.966807194753950 0.016596402623025 0.016596402623025 0.003582462351273;
  DP 6 0.103575692245252 0.296555596579887 0.599868711174861 0.032773147460627;
  DP 6 0.020083411655416 0.337723063403079 0.642193524941505 0.015298306248441;
  DP 6 (-0.004341002614139) 0.204748281642812 0.799592720971327 0.002386244192839;
  DP 6 0.041941786468010 0.189358492130623 0.768699721401368 0.019084792755899;
  DP 6 0.014317320230681 0.085283615682657 0.900399064086661 0.006850054546542 ].
(** quad_raw_triangle.hpp:173-189 *)
Definition dunavant_rule_17 : list dunavant_point := [
  DP 1 0.333333333333333 0.333333333333333 0.333333333333333 0.033437199290803;
  DP 3 0.005658918886452 0.497170540556774 0.497170540556774 0.005093415440507;
  DP 3 0.035647354750751 0.482176322624625 0.482176322624625 0.014670864527638;
  DP 3 0.099520061958437 0.450239969020782 0.450239969020782 0.024350878353672;
  DP 3 0.199467521245206 0.400266239377397 0.400266239377397 0.031107550868969;
  DP 3 0.495717464058095 0.252141267970953 0.252141267970953 0.031257111218620;
  DP 3 0.675905990683077 0.162047004658461 0.162047004658461 0.024815654339665;
  DP 3 0.848248235478508 0.075875882260746 0.075875882260746 0.014056073070557;
  DP 3 0.968690546064356 0.015654726967822 0.015654726967822 0.003194676173779;
  DP 6 0.010186928826919 0.334319867363658 0.655493203809423 0.008119655318993;
  DP 6 0.135440871671036 0.292221537796944 0.572337590532020 0.026805742283163;
  DP 6 0.054423924290583 0.319574885423190 0.626001190286228 0.018459993210822;
  DP 6 0.012868560833637 0.190704224192292 0.796427214974071 0.008476868534328;
  DP 6 0.067165782413524 0.180483211648746 0.752351005937729 0.018292796770025;
  DP 6 0.014663182224828 0.080711313679564 0.904625504095608 0.006665632004165 ].
(** quad_raw_triangle.hpp:191-209 *)
Definition dunavant_rule_18 : list dunavant_point := [
  DP 1 0.333333333333333 0.333333333333333 0.333333333333333 0.030809939937647;
  DP 3 0.013310382738157 0.493344808630921 0.493344808630921 0.009072436679404;
  DP 3 0.061578811516086 0.469210594241957 0.469210594241957 0.018761316939594;
  DP 3 0.127437208225989 0.436281395887006 0.436281395887006 0.019441097985477;
  DP 3 0.210307658653168 0.394846170673416 0.394846170673416 0.027753948610810;
  DP 3 0.500410862393686 0.249794568803157 0.249794568803157 0.032256225351457;
  DP 3 0.677135612512315 0.161432193743843 0.161432193743843 0.025074032616922;
  DP 3 0.846803545029257 0.076598227485371 0.076598227485371 0.015271927971832;
  DP 3 0.951495121293100 0.024252439353450 0.024252439353450 0.006793922022963;
  DP 3 0.913707265566071 0.043146367216965 0.043146367216965 (-0.002223098729920);
  DP 6 0.008430536202420 0.358911494940944 0.632657968856636 0.006331914076406;
  DP 6 0.131186551737188 0.294402476751957 0.574410971510855 0.027257538049138;
  DP 6 0.050203151565675 0.325017801641814 0.624779046792512 0.017676785649465;
  DP 6 0.066329263810916 0.184737559666046 0.748933176523037 0.018379484638070;
  DP 6 0.011996194566236 0.218796800013321 0.769207005420443 0.008104732808192;
  DP 6 0.014858100590125 0.101179597136408 0.883962302273467 0.007634129070725;
  DP 6 (-0.035222015287949) 0.020874755282586 1.014347260005363 0.000046187660794 ].
(** quad_raw_triangle.hpp:211-229 *)
Definition dunavant_rule_19 : list dunavant_point := [
  DP 1 0.333333333333333 0.333333333333333 0.333333333333333 0.032906331388919;
  DP 3 0.020780025853987 0.489609987073006 0.489609987073006 0.010330731891272;
  DP 3 0.090926214604215 0.454536892697893 0.454536892697893 0.022387247263016;
  DP 3 0.197166638701138 0.401416680649431 0.401416680649431 0.030266125869468;
  DP 3 0.488896691193805 0.255551654403098 0.255551654403098 0.030490967802198;
  DP 3 0.645844115695741 0.177077942152130 0.177077942152130 0.024159212741641;
  DP 3 0.779877893544096 0.110061053227952 0.110061053227952 0.016050803586801;
  DP 3 0.888942751496321 0.055528624251840 0.055528624251840 0.008084580261784;
  DP 3 0.974756272445543 0.012621863777229 0.012621863777229 0.002079362027485;
  DP 6 0.003611417848412 0.395754787356943 0.600633794794645 0.003884876904981;
  DP 6 0.134466754530780 0.307929983880436 0.557603261588784 0.025574160612022;
  DP 6 0.014446025776115 0.264566948406520 0.720987025817365 0.008880903573338;
  DP 6 0.046933578838178 0.358539352205951 0.594527068955871 0.016124546761731;
  DP 6 0.002861120350567 0.157807405968595 0.839331473680839 0.002491941817491;
  DP 6 0.223861424097916 0.075050596975911 0.701087978926173 0.018242840118951;
  DP 6 0.034647074816760 0.142421601113383 0.822931324069857 0.010258563736199;
  DP 6 0.010161119296278 0.065494628082938 0.924344252620784 0.003799928855302 ].
(** quad_raw_triangle.hpp:231-251 *)
Definition dunavant_rule_20 : list dunavant_point := [
  DP 1 0.333333333333333 0.333333333333333 0.333333333333333 0.033057055541624;
  DP 3 (-0.001900928704400) 0.500950464352200 0.500950464352200 0.000867019185663;
  DP 3 0.023574084130543 0.488212957934729 0.488212957934729 0.011660052716448;
  DP 3 0.089726636099435 0.455136681950283 0.455136681950283 0.022876936356421;
  DP 3 0.196007481363421 0.401996259318289 0.401996259318289 0.030448982673938;
  DP 3 0.488214180481157 0.255892909759421 0.255892909759421 0.030624891725355;
  DP 3 0.647023488009788 0.176488255995106 0.176488255995106 0.024368057676800;
  DP 3 0.791658289326483 0.104170855336758 0.104170855336758 0.015997432032024;
  DP 3 0.893862072318140 0.053068963840930 0.053068963840930 0.007698301815602;
  DP 3 0.916762569607942 0.041618715196029 0.041618715196029 (-0.000632060497488);
  DP 3 0.976836157186356 0.011581921406822 0.011581921406822 0.001751134301193;
  DP 6 0.048741583664839 0.344855770229001 0.606402646106160 0.016465839189576;
  DP 6 0.006314115948605 0.377843269594854 0.615842614456541 0.004839033540485;
  DP 6 0.134316520547348 0.306635479062357 0.559048000390295 0.025804906534650;
  DP 6 0.013973893962392 0.249419362774742 0.736606743262866 0.008471091054441;
  DP 6 0.075549132909764 0.212775724802802 0.711675142287434 0.018354914106280;
  DP 6 (-0.008368153208227) 0.146965436053239 0.861402717154987 0.000704404677908;
  DP 6 0.026686063258714 0.137726978828923 0.835586957912363 0.010112684927462;
  DP 6 0.010547719294141 0.059696109149007 0.929756171556853 0.003573909385950 ].
(** quad_raw_triangle.hpp:358-360 *)
Definition triangle_gauss_rule_1 : list triangle_gauss_point := [
  TG 3.33333333333333370e-1 3.33333333333333370e-1 5.00000000000000000e-1 ].
(** quad_raw_triangle.hpp:362-366 *)
Definition triangle_gauss_rule_2 : list triangle_gauss_point := [
  TG 6.66666666666666630e-1 1.66666666666666657e-1 1.66666666666666657e-1;
  TG 1.66666666666666657e-1 6.66666666666666630e-1 1.66666666666666657e-1;
  TG 1.66666666666666657e-1 1.66666666666666657e-1 1.66666666666666657e-1 ].
(** quad_raw_triangle.hpp:368-373 *)
Definition triangle_gauss_rule_3 : list triangle_gauss_point := [
  TG 1.55051025721682195e-1 1.78558728263616434e-1 1.59020690871988585e-1;
  TG 6.44948974278317766e-1 7.50311102226081245e-2 9.09793091280114152e-2;
  TG 1.55051025721682195e-1 6.66390246014701426e-1 1.59020690871988585e-1;
  TG 6.44948974278317766e-1 2.80019915499074068e-1 9.09793091280114152e-2 ].
(** quad_raw_triangle.hpp:375-382 *)
Definition triangle_gauss_rule_4 : list triangle_gauss_point := [
  TG 4.45948490915964890e-1 4.45948490915964890e-1 1.11690794839005736e-1;
  TG 4.45948490915964890e-1 1.08103018168070233e-1 1.11690794839005736e-1;
  TG 1.08103018168070233e-1 4.45948490915964890e-1 1.11690794839005736e-1;
  TG 9.15762135097707430e-2 9.15762135097707430e-2 5.49758718276609354e-2;
  TG 9.15762135097707430e-2 8.16847572980458514e-1 5.49758718276609354e-2;
  TG 8.16847572980458514e-1 9.15762135097707430e-2 5.49758718276609354e-2 ].
(** quad_raw_triangle.hpp:384-392 *)
Definition triangle_gauss_rule_5 : list triangle_gauss_point := [
  TG 3.33333333333332982e-1 3.33333333333332982e-1 1.12500000000000003e-1;
  TG 4.70142064105115054e-1 4.70142064105115054e-1 6.61970763942530960e-2;
  TG 4.70142064105115054e-1 5.97158717897698504e-2 6.61970763942530960e-2;
  TG 5.97158717897698504e-2 4.70142064105115054e-1 6.61970763942530960e-2;
  TG 1.01286507323456329e-1 1.01286507323456329e-1 6.29695902724135836e-2;
  TG 1.01286507323456329e-1 7.97426985353087314e-1 6.29695902724135836e-2;
  TG 7.97426985353087314e-1 1.01286507323456329e-1 6.29695902724135836e-2 ].
(** quad_raw_triangle.hpp:394-407 *)
Definition triangle_gauss_rule_6 : list triangle_gauss_point := [
  TG 2.49286745170910429e-1 2.49286745170910429e-1 5.83931378631896841e-2;
  TG 2.49286745170910429e-1 5.01426509658179143e-1 5.83931378631896841e-2;
  TG 5.01426509658179143e-1 2.49286745170910429e-1 5.83931378631896841e-2;
  TG 6.30890144915022266e-2 6.30890144915022266e-2 2.54224531851034094e-2;
  TG 6.30890144915022266e-2 8.73821971016995547e-1 2.54224531851034094e-2;
  TG 8.73821971016995547e-1 6.30890144915022266e-2 2.54224531851034094e-2;
  TG 3.10352451033784393e-1 6.36502499121398668e-1 4.14255378091867854e-2;
  TG 6.36502499121398668e-1 3.10352451033784393e-1 4.14255378091867854e-2;
  TG 3.10352451033784393e-1 5.31450498448169453e-2 4.14255378091867854e-2;
  TG 5.31450498448169453e-2 3.10352451033784393e-1 4.14255378091867854e-2;
  TG 6.36502499121398668e-1 5.31450498448169453e-2 4.14255378091867854e-2;
  TG 5.31450498448169453e-2 6.36502499121398668e-1 4.14255378091867854e-2 ].
(** quad_raw_triangle.hpp:409-422 *)
Definition triangle_gauss_rule_7 : list triangle_gauss_point := [
  TG 6.23822650944021173e-2 6.75178670739160908e-2 2.65170281574362496e-2;
  TG 8.70099867831681806e-1 6.23822650944021173e-2 2.65170281574362496e-2;
  TG 6.75178670739160908e-2 8.70099867831681806e-1 2.65170281574362496e-2;
  TG 5.52254566569266095e-2 3.21502493851981819e-1 4.38814087144460546e-2;
  TG 6.23272049491091606e-1 5.52254566569266095e-2 4.38814087144460546e-2;
  TG 3.21502493851981819e-1 6.23272049491091606e-1 4.38814087144460546e-2;
  TG 3.43243029450971474e-2 6.60949196186735644e-1 2.87750427849815839e-2;
  TG 3.04726500868167216e-1 3.43243029450971474e-2 2.87750427849815839e-2;
  TG 6.60949196186735644e-1 3.04726500868167216e-1 2.87750427849815839e-2;
  TG 5.15842334353591725e-1 2.77716166976391787e-1 6.74931870098027797e-2;
  TG 2.06441498670016488e-1 5.15842334353591725e-1 6.74931870098027797e-2;
  TG 2.77716166976391787e-1 2.06441498670016488e-1 6.74931870098027797e-2 ].
(** quad_raw_triangle.hpp:424-441 *)
Definition triangle_gauss_rule_8 : list triangle_gauss_point := [
  TG 3.33333333333332982e-1 3.33333333333332982e-1 7.21578038388935861e-2;
  TG 4.59292588292723181e-1 4.59292588292723181e-1 4.75458171336423097e-2;
  TG 4.59292588292723181e-1 8.14148234145536942e-2 4.75458171336423097e-2;
  TG 8.14148234145536942e-2 4.59292588292723181e-1 4.75458171336423097e-2;
  TG 1.70569307751760213e-1 1.70569307751760213e-1 5.16086852673591223e-2;
  TG 1.70569307751760213e-1 6.58861384496479574e-1 5.16086852673591223e-2;
  TG 6.58861384496479574e-1 1.70569307751760213e-1 5.16086852673591223e-2;
  TG 5.05472283170309775e-2 5.05472283170309775e-2 1.62292488115990396e-2;
  TG 5.05472283170309775e-2 8.98905543365938087e-1 1.62292488115990396e-2;
  TG 8.98905543365938087e-1 5.05472283170309775e-2 1.62292488115990396e-2;
  TG 2.63112829634638112e-1 7.28492392955404244e-1 1.36151570872174964e-2;
  TG 7.28492392955404244e-1 2.63112829634638112e-1 1.36151570872174964e-2;
  TG 2.63112829634638112e-1 8.39477740995760516e-3 1.36151570872174964e-2;
  TG 8.39477740995760516e-3 2.63112829634638112e-1 1.36151570872174964e-2;
  TG 7.28492392955404244e-1 8.39477740995760516e-3 1.36151570872174964e-2;
  TG 8.39477740995760516e-3 7.28492392955404244e-1 1.36151570872174964e-2 ].
(** quad_raw_triangle.hpp:443-463 *)
Definition triangle_gauss_rule_9 : list triangle_gauss_point := [
  TG 3.33333333333332982e-1 3.33333333333332982e-1 4.85678981413994182e-2;
  TG 4.89682519198737620e-1 4.89682519198737620e-1 1.56673501135695357e-2;
  TG 4.89682519198737620e-1 2.06349616025247456e-2 1.56673501135695357e-2;
  TG 2.06349616025247456e-2 4.89682519198737620e-1 1.56673501135695357e-2;
  TG 4.47295133944527121e-2 4.47295133944527121e-2 1.27888378293490156e-2;
  TG 4.47295133944527121e-2 9.10540973211094617e-1 1.27888378293490156e-2;
  TG 9.10540973211094617e-1 4.47295133944527121e-2 1.27888378293490156e-2;
  TG 4.37089591492936635e-1 4.37089591492936635e-1 3.89137705023871391e-2;
  TG 4.37089591492936635e-1 1.25820817014126729e-1 3.89137705023871391e-2;
  TG 1.25820817014126729e-1 4.37089591492936635e-1 3.89137705023871391e-2;
  TG 1.88203535619032719e-1 1.88203535619032719e-1 3.98238694636051244e-2;
  TG 1.88203535619032719e-1 6.23592928761934506e-1 3.98238694636051244e-2;
  TG 6.23592928761934506e-1 1.88203535619032719e-1 3.98238694636051244e-2;
  TG 2.21962989160765706e-1 7.41198598784498008e-1 2.16417696886446881e-2;
  TG 7.41198598784498008e-1 2.21962989160765706e-1 2.16417696886446881e-2;
  TG 2.21962989160765706e-1 3.68384120547362859e-2 2.16417696886446881e-2;
  TG 3.68384120547362859e-2 2.21962989160765706e-1 2.16417696886446881e-2;
  TG 7.41198598784498008e-1 3.68384120547362859e-2 2.16417696886446881e-2;
  TG 3.68384120547362859e-2 7.41198598784498008e-1 2.16417696886446881e-2 ].
(** quad_raw_triangle.hpp:465-491 *)
Definition triangle_gauss_rule_10 : list triangle_gauss_point := [
  TG 3.33333333333332982e-1 3.33333333333332982e-1 4.54089951913767900e-2;
  TG 4.85577633383657392e-1 4.85577633383657392e-1 1.83629788782333526e-2;
  TG 4.85577633383657392e-1 2.88447332326852469e-2 1.83629788782333526e-2;
  TG 2.88447332326852469e-2 4.85577633383657392e-1 1.83629788782333526e-2;
  TG 1.09481575485037050e-1 1.09481575485037050e-1 2.26605297177639685e-2;
  TG 1.09481575485037050e-1 7.81036849029925873e-1 2.26605297177639685e-2;
  TG 7.81036849029925873e-1 1.09481575485037050e-1 2.26605297177639685e-2;
  TG 3.07939838764120954e-1 5.50352941820999142e-1 3.63789584227100574e-2;
  TG 5.50352941820999142e-1 3.07939838764120954e-1 3.63789584227100574e-2;
  TG 3.07939838764120954e-1 1.41707219414879959e-1 3.63789584227100574e-2;
  TG 1.41707219414879959e-1 3.07939838764120954e-1 3.63789584227100574e-2;
  TG 5.50352941820999142e-1 1.41707219414879959e-1 3.63789584227100574e-2;
  TG 1.41707219414879959e-1 5.50352941820999142e-1 3.63789584227100574e-2;
  TG 2.46672560639902699e-1 7.28323904597410920e-1 1.41636212655287426e-2;
  TG 7.28323904597410920e-1 2.46672560639902699e-1 1.41636212655287426e-2;
  TG 2.46672560639902699e-1 2.50035347626863871e-2 1.41636212655287426e-2;
  TG 2.50035347626863871e-2 2.46672560639902699e-1 1.41636212655287426e-2;
  TG 7.28323904597410920e-1 2.50035347626863871e-2 1.41636212655287426e-2;
  TG 2.50035347626863871e-2 7.28323904597410920e-1 1.41636212655287426e-2;
  TG 6.68032510122002626e-2 9.23655933587500311e-1 4.71083348186641156e-3;
  TG 9.23655933587500311e-1 6.68032510122002626e-2 4.71083348186641156e-3;
  TG 6.68032510122002626e-2 9.54081540029945788e-3 4.71083348186641156e-3;
  TG 9.54081540029945788e-3 6.68032510122002626e-2 4.71083348186641156e-3;
  TG 9.23655933587500311e-1 9.54081540029945788e-3 4.71083348186641156e-3;
  TG 9.54081540029945788e-3 9.23655933587500311e-1 4.71083348186641156e-3 ].
(** quad_raw_triangle.hpp:493-524 *)
Definition triangle_gauss_rule_11 : list triangle_gauss_point := [
  TG 3.93550796299479699e-1 3.93550796299479699e-1 3.60890211986046386e-2;
  TG 3.93550796299479699e-1 2.12898407401040601e-1 3.60890211986046386e-2;
  TG 2.12898407401040601e-1 3.93550796299479699e-1 3.60890211986046386e-2;
  TG 4.79790658088974475e-1 4.79790658088974475e-1 2.16077178076804211e-2;
  TG 4.79790658088974475e-1 4.04186838220510283e-2 2.16077178076804211e-2;
  TG 4.04186838220510283e-2 4.79790658088974475e-1 2.16077178076804211e-2;
  TG 5.10034456458280643e-3 5.68171557885724446e-2 3.11445242939279799e-3;
  TG 5.68171557885724446e-2 5.10034456458280643e-3 3.11445242939279799e-3;
  TG 5.10034456458280643e-3 9.38082499646844759e-1 3.11445242939279799e-3;
  TG 9.38082499646844759e-1 5.10034456458280643e-3 3.11445242939279799e-3;
  TG 5.68171557885724446e-2 9.38082499646844759e-1 3.11445242939279799e-3;
  TG 9.38082499646844759e-1 5.68171557885724446e-2 3.11445242939279799e-3;
  TG 2.65976201903301568e-1 1.25399563536620878e-1 2.90868551610815110e-2;
  TG 1.25399563536620878e-1 2.65976201903301568e-1 2.90868551610815110e-2;
  TG 2.65976201903301568e-1 6.08624234560077526e-1 2.90868551610815110e-2;
  TG 6.08624234560077526e-1 2.65976201903301568e-1 2.90868551610815110e-2;
  TG 1.25399563536620878e-1 6.08624234560077526e-1 2.90868551610815110e-2;
  TG 6.08624234560077526e-1 1.25399563536620878e-1 2.90868551610815110e-2;
  TG 2.85364185386964619e-1 1.24099701536985324e-2 8.48792416149170108e-3;
  TG 1.24099701536985324e-2 2.85364185386964619e-1 8.48792416149170108e-3;
  TG 2.85364185386964619e-1 7.02225844459336890e-1 8.48792416149170108e-3;
  TG 7.02225844459336890e-1 2.85364185386964619e-1 8.48792416149170108e-3;
  TG 1.24099701536985324e-2 7.02225844459336890e-1 8.48792416149170108e-3;
  TG 7.02225844459336890e-1 1.24099701536985324e-2 8.48792416149170108e-3;
  TG 1.37235367478170861e-1 5.27920579882177124e-2 1.37957320782247962e-2;
  TG 5.27920579882177124e-2 1.37235367478170861e-1 1.37957320782247962e-2;
  TG 1.37235367478170861e-1 8.09972574533611489e-1 1.37957320782247962e-2;
  TG 8.09972574533611489e-1 1.37235367478170861e-1 1.37957320782247962e-2;
  TG 5.27920579882177124e-2 8.09972574533611489e-1 1.37957320782247962e-2;
  TG 8.09972574533611489e-1 5.27920579882177124e-2 1.37957320782247962e-2 ].
(** quad_raw_triangle.hpp:526-560 *)
Definition triangle_gauss_rule_12 : list triangle_gauss_point := [
  TG 2.13173504532103708e-2 2.13173504532103708e-2 3.08313052577950880e-3;
  TG 2.13173504532103708e-2 9.57365299093579258e-1 3.08313052577950880e-3;
  TG 9.57365299093579258e-1 2.13173504532103708e-2 3.08313052577950880e-3;
  TG 2.71210385012115918e-1 2.71210385012115918e-1 3.14291121089425515e-2;
  TG 2.71210385012115918e-1 4.57579229975768165e-1 3.14291121089425515e-2;
  TG 4.57579229975768165e-1 2.71210385012115918e-1 3.14291121089425515e-2;
  TG 1.27576145541585917e-1 1.27576145541585917e-1 1.73980564653544723e-2;
  TG 1.27576145541585917e-1 7.44847708916828166e-1 1.73980564653544723e-2;
  TG 7.44847708916828166e-1 1.27576145541585917e-1 1.73980564653544723e-2;
  TG 4.39724392294460253e-1 4.39724392294460253e-1 2.18462722690192027e-2;
  TG 4.39724392294460253e-1 1.20551215411079451e-1 2.18462722690192027e-2;
  TG 1.20551215411079451e-1 4.39724392294460253e-1 2.18462722690192027e-2;
  TG 4.88217389773804855e-1 4.88217389773804855e-1 1.28655332202276679e-2;
  TG 4.88217389773804855e-1 2.35652204523902342e-2 1.28655332202276679e-2;
  TG 2.35652204523902342e-2 4.88217389773804855e-1 1.28655332202276679e-2;
  TG 2.81325580989939539e-1 6.95836086787803398e-1 1.11783866011517224e-2;
  TG 6.95836086787803398e-1 2.81325580989939539e-1 1.11783866011517224e-2;
  TG 2.81325580989939539e-1 2.28383322222570281e-2 1.11783866011517224e-2;
  TG 2.28383322222570281e-2 2.81325580989939539e-1 1.11783866011517224e-2;
  TG 6.95836086787803398e-1 2.28383322222570281e-2 1.11783866011517224e-2;
  TG 2.28383322222570281e-2 6.95836086787803398e-1 1.11783866011517224e-2;
  TG 1.16251915907597148e-1 8.58014033544072685e-1 8.65811555432944614e-3;
  TG 8.58014033544072685e-1 1.16251915907597148e-1 8.65811555432944614e-3;
  TG 1.16251915907597148e-1 2.57340505483302298e-2 8.65811555432944614e-3;
  TG 2.57340505483302298e-2 1.16251915907597148e-1 8.65811555432944614e-3;
  TG 8.58014033544072685e-1 2.57340505483302298e-2 8.65811555432944614e-3;
  TG 2.57340505483302298e-2 8.58014033544072685e-1 8.65811555432944614e-3;
  TG 2.75713269685514184e-1 6.08943235779787817e-1 2.01857788831904632e-2;
  TG 6.08943235779787817e-1 2.75713269685514184e-1 2.01857788831904632e-2;
  TG 2.75713269685514184e-1 1.15343494534697999e-1 2.01857788831904632e-2;
  TG 1.15343494534697999e-1 2.75713269685514184e-1 2.01857788831904632e-2;
  TG 6.08943235779787817e-1 1.15343494534697999e-1 2.01857788831904632e-2;
  TG 1.15343494534697999e-1 6.08943235779787817e-1 2.01857788831904632e-2 ].
(** quad_raw_triangle.hpp:562-600 *)
Definition triangle_gauss_rule_13 : list triangle_gauss_point := [
  TG 3.33333333333332982e-1 3.33333333333332982e-1 3.39800182934158201e-2;
  TG 4.26941414259800422e-1 4.26941414259800422e-1 2.78009837652266646e-2;
  TG 4.26941414259800422e-1 1.46117171480399183e-1 2.78009837652266646e-2;
  TG 1.46117171480399183e-1 4.26941414259800422e-1 2.78009837652266646e-2;
  TG 2.21372286291832893e-1 2.21372286291832893e-1 2.91392425595999906e-2;
  TG 2.21372286291832893e-1 5.57255427416334159e-1 2.91392425595999906e-2;
  TG 5.57255427416334159e-1 2.21372286291832893e-1 2.91392425595999906e-2;
  TG 2.15096811088431837e-2 2.15096811088431837e-2 3.02616855176958584e-3;
  TG 2.15096811088431837e-2 9.56980637782313681e-1 3.02616855176958584e-3;
  TG 9.56980637782313681e-1 2.15096811088431837e-2 3.02616855176958584e-3;
  TG 4.89076946452539352e-1 4.89076946452539352e-1 1.19972009644473653e-2;
  TG 4.89076946452539352e-1 2.18461070949213000e-2 1.19972009644473653e-2;
  TG 2.18461070949213000e-2 4.89076946452539352e-1 1.19972009644473653e-2;
  TG 3.08441760892117778e-1 6.23545995553675625e-1 1.73206380704241866e-2;
  TG 6.23545995553675625e-1 3.08441760892117778e-1 1.73206380704241866e-2;
  TG 3.08441760892117778e-1 6.80122435542066528e-2 1.73206380704241866e-2;
  TG 6.80122435542066528e-2 3.08441760892117778e-1 1.73206380704241866e-2;
  TG 6.23545995553675625e-1 6.80122435542066528e-2 1.73206380704241866e-2;
  TG 6.80122435542066528e-2 6.23545995553675625e-1 1.73206380704241866e-2;
  TG 1.10922042803463392e-1 8.64707770295442768e-1 7.48270055258283377e-3;
  TG 8.64707770295442768e-1 1.10922042803463392e-1 7.48270055258283377e-3;
  TG 1.10922042803463392e-1 2.43701869010938300e-2 7.48270055258283377e-3;
  TG 2.43701869010938300e-2 1.10922042803463392e-1 7.48270055258283377e-3;
  TG 8.64707770295442768e-1 2.43701869010938300e-2 7.48270055258283377e-3;
  TG 2.43701869010938300e-2 8.64707770295442768e-1 7.48270055258283377e-3;
  TG 1.63597401067850479e-1 7.48507115899952225e-1 1.20895199057969097e-2;
  TG 7.48507115899952225e-1 1.63597401067850479e-1 1.20895199057969097e-2;
  TG 1.63597401067850479e-1 8.78954830321973246e-2 1.20895199057969097e-2;
  TG 8.78954830321973246e-2 1.63597401067850479e-1 1.20895199057969097e-2;
  TG 7.48507115899952225e-1 8.78954830321973246e-2 1.20895199057969097e-2;
  TG 8.78954830321973246e-2 7.48507115899952225e-1 1.20895199057969097e-2;
  TG 2.72515817773429647e-1 7.22357793124188019e-1 4.79534050177163156e-3;
  TG 7.22357793124188019e-1 2.72515817773429647e-1 4.79534050177163156e-3;
  TG 2.72515817773429647e-1 5.12638910238236850e-3 4.79534050177163156e-3;
  TG 5.12638910238236850e-3 2.72515817773429647e-1 4.79534050177163156e-3;
  TG 7.22357793124188019e-1 5.12638910238236850e-3 4.79534050177163156e-3;
  TG 5.12638910238236850e-3 7.22357793124188019e-1 4.79534050177163156e-3 ].
(** quad_raw_triangle.hpp:602-645 *)
Definition triangle_gauss_rule_14 : list triangle_gauss_point := [
  TG 4.88963910362178622e-1 4.88963910362178622e-1 1.09417906847144447e-2;
  TG 4.88963910362178622e-1 2.20721792756427213e-2 1.09417906847144447e-2;
  TG 2.20721792756427213e-2 4.88963910362178622e-1 1.09417906847144447e-2;
  TG 4.17644719340453940e-1 4.17644719340453940e-1 1.63941767720626741e-2;
  TG 4.17644719340453940e-1 1.64710561319092147e-1 1.63941767720626741e-2;
  TG 1.64710561319092147e-1 4.17644719340453940e-1 1.63941767720626741e-2;
  TG 2.73477528308838647e-1 2.73477528308838647e-1 2.58870522536457925e-2;
  TG 2.73477528308838647e-1 4.53044943382322707e-1 2.58870522536457925e-2;
  TG 4.53044943382322707e-1 2.73477528308838647e-1 2.58870522536457925e-2;
  TG 1.77205532412543443e-1 1.77205532412543443e-1 2.10812943684965080e-2;
  TG 1.77205532412543443e-1 6.45588935174913114e-1 2.10812943684965080e-2;
  TG 6.45588935174913114e-1 1.77205532412543443e-1 2.10812943684965080e-2;
  TG 6.17998830908726010e-2 6.17998830908726010e-2 7.21684983488833382e-3;
  TG 6.17998830908726010e-2 8.76400233818254826e-1 7.21684983488833382e-3;
  TG 8.76400233818254826e-1 6.17998830908726010e-2 7.21684983488833382e-3;
  TG 1.93909612487010476e-2 1.93909612487010476e-2 2.46170180120004094e-3;
  TG 1.93909612487010476e-2 9.61218077502597912e-1 2.46170180120004094e-3;
  TG 9.61218077502597912e-1 1.93909612487010476e-2 2.46170180120004094e-3;
  TG 1.72266687821355569e-1 7.70608554774996457e-1 1.23328766062818368e-2;
  TG 7.70608554774996457e-1 1.72266687821355569e-1 1.23328766062818368e-2;
  TG 1.72266687821355569e-1 5.71247574036479397e-2 1.23328766062818368e-2;
  TG 5.71247574036479397e-2 1.72266687821355569e-1 1.23328766062818368e-2;
  TG 7.70608554774996457e-1 5.71247574036479397e-2 1.23328766062818368e-2;
  TG 5.71247574036479397e-2 7.70608554774996457e-1 1.23328766062818368e-2;
  TG 3.36861459796345020e-1 5.70222290846683189e-1 1.92857553935303419e-2;
  TG 5.70222290846683189e-1 3.36861459796345020e-1 1.92857553935303419e-2;
  TG 3.36861459796345020e-1 9.29162493569718195e-2 1.92857553935303419e-2;
  TG 9.29162493569718195e-2 3.36861459796345020e-1 1.92857553935303419e-2;
  TG 5.70222290846683189e-1 9.29162493569718195e-2 1.92857553935303419e-2;
  TG 9.29162493569718195e-2 5.70222290846683189e-1 1.92857553935303419e-2;
  TG 2.98372882136257733e-1 6.86980167808087794e-1 7.21815405676692022e-3;
  TG 6.86980167808087794e-1 2.98372882136257733e-1 7.21815405676692022e-3;
  TG 2.98372882136257733e-1 1.46469500556544105e-2 7.21815405676692022e-3;
  TG 1.46469500556544105e-2 2.98372882136257733e-1 7.21815405676692022e-3;
  TG 6.86980167808087794e-1 1.46469500556544105e-2 7.21815405676692022e-3;
  TG 1.46469500556544105e-2 6.86980167808087794e-1 7.21815405676692022e-3;
  TG 1.18974497696956852e-1 8.79757171370171176e-1 2.50511441925033596e-3;
  TG 8.79757171370171176e-1 1.18974497696956852e-1 2.50511441925033596e-3;
  TG 1.18974497696956852e-1 1.26833093287202509e-3 2.50511441925033596e-3;
  TG 1.26833093287202509e-3 1.18974497696956852e-1 2.50511441925033596e-3;
  TG 8.79757171370171176e-1 1.26833093287202509e-3 2.50511441925033596e-3;
  TG 1.26833093287202509e-3 8.79757171370171176e-1 2.50511441925033596e-3 ].
(** quad_raw_triangle.hpp:647-697 *)
Definition triangle_gauss_rule_15 : list triangle_gauss_point := [
  TG 3.33333333333332982e-1 3.33333333333332982e-1 2.47773807430355791e-2;
  TG 7.90310136555416320e-2 7.90310136555416320e-2 9.24339430233077353e-3;
  TG 7.90310136555416320e-2 8.41937972688916680e-1 9.24339430233077353e-3;
  TG 8.41937972688916680e-1 7.90310136555416320e-2 9.24339430233077353e-3;
  TG 1.87895018107700762e-2 1.87895018107700762e-2 2.24857689621754024e-3;
  TG 1.87895018107700762e-2 9.62420996378459792e-1 2.24857689621754024e-3;
  TG 9.62420996378459792e-1 1.87895018107700762e-2 2.24857689621754024e-3;
  TG 4.92501688232496682e-1 4.92501688232496682e-1 6.70525819000641465e-3;
  TG 4.92501688232496682e-1 1.49966235350065900e-2 6.70525819000641465e-3;
  TG 1.49966235350065900e-2 4.92501688232496682e-1 6.70525819000641465e-3;
  TG 4.08863169077441080e-1 4.08863169077441080e-1 1.90113817269305790e-2;
  TG 4.08863169077441080e-1 1.82273661845117868e-1 1.90113817269305790e-2;
  TG 1.82273661845117868e-1 4.08863169077441080e-1 1.90113817269305790e-2;
  TG 5.38778510642201391e-1 1.94126203687746302e-1 1.46054453874718895e-2;
  TG 1.94126203687746302e-1 5.38778510642201391e-1 1.46054453874718895e-2;
  TG 5.38778510642201391e-1 2.67095285670052252e-1 1.46054453874718895e-2;
  TG 2.67095285670052252e-1 5.38778510642201391e-1 1.46054453874718895e-2;
  TG 1.94126203687746302e-1 2.67095285670052252e-1 1.46054453874718895e-2;
  TG 2.67095285670052252e-1 1.94126203687746302e-1 1.46054453874718895e-2;
  TG 2.02505498048299981e-1 9.87659113557121104e-2 1.50873225727731330e-2;
  TG 9.87659113557121104e-2 2.02505498048299981e-1 1.50873225727731330e-2;
  TG 2.02505498048299981e-1 6.98728590595987908e-1 1.50873225727731330e-2;
  TG 6.98728590595987908e-1 2.02505498048299981e-1 1.50873225727731330e-2;
  TG 9.87659113557121104e-2 6.98728590595987908e-1 1.50873225727731330e-2;
  TG 6.98728590595987908e-1 9.87659113557121104e-2 1.50873225727731330e-2;
  TG 5.53496749187116444e-1 7.76637670643081646e-2 1.56302137800788041e-2;
  TG 7.76637670643081646e-2 5.53496749187116444e-1 1.56302137800788041e-2;
  TG 5.53496749187116444e-1 3.68839483748575392e-1 1.56302137800788041e-2;
  TG 3.68839483748575392e-1 5.53496749187116444e-1 1.56302137800788041e-2;
  TG 7.76637670643081646e-2 3.68839483748575392e-1 1.56302137800788041e-2;
  TG 3.68839483748575392e-1 7.76637670643081646e-2 1.56302137800788041e-2;
  TG 7.83450225673208100e-1 2.15946284339802591e-2 6.18080860857782039e-3;
  TG 2.15946284339802591e-2 7.83450225673208100e-1 6.18080860857782039e-3;
  TG 7.83450225673208100e-1 1.94955145892811627e-1 6.18080860857782039e-3;
  TG 1.94955145892811627e-1 7.83450225673208100e-1 6.18080860857782039e-3;
  TG 2.15946284339802591e-2 1.94955145892811627e-1 6.18080860857782039e-3;
  TG 1.94955145892811627e-1 2.15946284339802591e-2 6.18080860857782039e-3;
  TG 8.95146245287948839e-1 1.25635962877849970e-2 3.22093664525946628e-3;
  TG 1.25635962877849970e-2 8.95146245287948839e-1 3.22093664525946628e-3;
  TG 8.95146245287948839e-1 9.22901584242661749e-2 3.22093664525946628e-3;
  TG 9.22901584242661749e-2 8.95146245287948839e-1 3.22093664525946628e-3;
  TG 1.25635962877849970e-2 9.22901584242661749e-2 3.22093664525946628e-3;
  TG 9.22901584242661749e-2 1.25635962877849970e-2 3.22093664525946628e-3;
  TG 3.25157452411107828e-1 1.50826548709227844e-2 5.87473732425696990e-3;
  TG 1.50826548709227844e-2 3.25157452411107828e-1 5.87473732425696990e-3;
  TG 3.25157452411107828e-1 6.59759892717969421e-1 5.87473732425696990e-3;
  TG 6.59759892717969421e-1 3.25157452411107828e-1 5.87473732425696990e-3;
  TG 1.50826548709227844e-2 6.59759892717969421e-1 5.87473732425696990e-3;
  TG 6.59759892717969421e-1 1.50826548709227844e-2 5.87473732425696990e-3 ].
(** quad_raw_triangle.hpp:699-755 *)
Definition triangle_gauss_rule_16 : list triangle_gauss_point := [
  TG 3.33333333333332982e-1 3.33333333333332982e-1 2.26680825059100872e-2;
  TG 8.54025394079332006e-2 8.54025394079332006e-2 8.40430607148185890e-3;
  TG 8.54025394079332006e-2 8.29194921184133626e-1 8.40430607148185890e-3;
  TG 8.29194921184133626e-1 8.54025394079332006e-2 8.40430607148185890e-3;
  TG 1.24255720014440924e-2 1.24255720014440924e-2 1.08509496340497471e-3;
  TG 1.24255720014440924e-2 9.75148855997111763e-1 1.08509496340497471e-3;
  TG 9.75148855997111763e-1 1.24255720014440924e-2 1.08509496340497471e-3;
  TG 4.91748383418915913e-1 4.91748383418915913e-1 7.22527733754236429e-3;
  TG 4.91748383418915913e-1 1.65032331621681183e-2 7.22527733754236429e-3;
  TG 1.65032331621681183e-2 4.91748383418915913e-1 7.22527733754236429e-3;
  TG 4.56694266953874661e-1 4.56694266953874661e-1 1.29977152273383668e-2;
  TG 4.56694266953874661e-1 8.66114660922507190e-2 1.29977152273383668e-2;
  TG 8.66114660922507190e-2 4.56694266953874661e-1 1.29977152273383668e-2;
  TG 4.85067598804474365e-1 3.23159128486343872e-1 2.00544666166777158e-2;
  TG 3.23159128486343872e-1 4.85067598804474365e-1 2.00544666166777158e-2;
  TG 4.85067598804474365e-1 1.91773272709181763e-1 2.00544666166777158e-2;
  TG 1.91773272709181763e-1 4.85067598804474365e-1 2.00544666166777158e-2;
  TG 3.23159128486343872e-1 1.91773272709181763e-1 2.00544666166777158e-2;
  TG 1.91773272709181763e-1 3.23159128486343872e-1 2.00544666166777158e-2;
  TG 2.06220992786642049e-1 1.53415536794146878e-1 9.72998416004170093e-3;
  TG 1.53415536794146878e-1 2.06220992786642049e-1 9.72998416004170093e-3;
  TG 2.06220992786642049e-1 6.40363470419211045e-1 9.72998416004170093e-3;
  TG 6.40363470419211045e-1 2.06220992786642049e-1 9.72998416004170093e-3;
  TG 1.53415536794146878e-1 6.40363470419211045e-1 9.72998416004170093e-3;
  TG 6.40363470419211045e-1 1.53415536794146878e-1 9.72998416004170093e-3;
  TG 3.23749502700390934e-1 7.42954789913306823e-2 1.16519744382981034e-2;
  TG 7.42954789913306823e-2 3.23749502700390934e-1 1.16519744382981034e-2;
  TG 3.23749502700390934e-1 6.01955018308278356e-1 1.16519744382981034e-2;
  TG 6.01955018308278356e-1 3.23749502700390934e-1 1.16519744382981034e-2;
  TG 7.42954789913306823e-2 6.01955018308278356e-1 1.16519744382981034e-2;
  TG 6.01955018308278356e-1 7.42954789913306823e-2 1.16519744382981034e-2;
  TG 7.38343305566065866e-1 7.12787628321478600e-2 9.12911855504844501e-3;
  TG 7.12787628321478600e-2 7.38343305566065866e-1 9.12911855504844501e-3;
  TG 7.38343305566065866e-1 1.90377931601786288e-1 9.12911855504844501e-3;
  TG 1.90377931601786288e-1 7.38343305566065866e-1 9.12911855504844501e-3;
  TG 7.12787628321478600e-2 1.90377931601786288e-1 9.12911855504844501e-3;
  TG 1.90377931601786288e-1 7.12787628321478600e-2 9.12911855504844501e-3;
  TG 9.12106730616807915e-1 1.66232232237057929e-2 3.55686140409471486e-3;
  TG 1.66232232237057929e-2 9.12106730616807915e-1 3.55686140409471486e-3;
  TG 9.12106730616807915e-1 7.12700461594862750e-2 3.55686140409471486e-3;
  TG 7.12700461594862750e-2 9.12106730616807915e-1 3.55686140409471486e-3;
  TG 1.66232232237057929e-2 7.12700461594862750e-2 3.55686140409471486e-3;
  TG 7.12700461594862750e-2 1.66232232237057929e-2 3.55686140409471486e-3;
  TG 6.61299192225987209e-1 1.41607725337947916e-2 5.83558616862343230e-3;
  TG 1.41607725337947916e-2 6.61299192225987209e-1 5.83558616862343230e-3;
  TG 6.61299192225987209e-1 3.24540035240218017e-1 5.83558616862343230e-3;
  TG 3.24540035240218017e-1 6.61299192225987209e-1 5.83558616862343230e-3;
  TG 1.41607725337947916e-2 3.24540035240218017e-1 5.83558616862343230e-3;
  TG 3.24540035240218017e-1 1.41607725337947916e-2 5.83558616862343230e-3;
  TG 1.78071389060214774e-1 1.45396949589418553e-2 4.74113143968042314e-3;
  TG 1.45396949589418553e-2 1.78071389060214774e-1 4.74113143968042314e-3;
  TG 1.78071389060214774e-1 8.07388915980843391e-1 4.74113143968042314e-3;
  TG 8.07388915980843391e-1 1.78071389060214774e-1 4.74113143968042314e-3;
  TG 1.45396949589418553e-2 8.07388915980843391e-1 4.74113143968042314e-3;
  TG 8.07388915980843391e-1 1.45396949589418553e-2 4.74113143968042314e-3 ].
(** quad_raw_triangle.hpp:757-821 *)
Definition triangle_gauss_rule_17 : list triangle_gauss_point := [
  TG 2.87968257546673601e-1 2.87968257546673601e-1 1.74646037925720032e-2;
  TG 2.87968257546673601e-1 4.24063484906652743e-1 1.74646037925720032e-2;
  TG 4.24063484906652743e-1 2.87968257546673601e-1 1.74646037925720032e-2;
  TG 4.92161759862084658e-1 4.92161759862084658e-1 5.94290035558017217e-3;
  TG 4.92161759862084658e-1 1.56764802758306947e-2 5.94290035558017217e-3;
  TG 1.56764802758306947e-2 4.92161759862084658e-1 5.94290035558017217e-3;
  TG 4.62528667631711743e-1 4.62528667631711743e-1 1.24907533451695790e-2;
  TG 4.62528667631711743e-1 7.49426647365765281e-2 1.24907533451695790e-2;
  TG 7.49426647365765281e-2 4.62528667631711743e-1 1.24907533451695790e-2;
  TG 1.67302929516317922e-1 3.44291606955017149e-1 1.53869871888756074e-2;
  TG 3.44291606955017149e-1 1.67302929516317922e-1 1.53869871888756074e-2;
  TG 1.67302929516317922e-1 4.88405463528664929e-1 1.53869871888756074e-2;
  TG 4.88405463528664929e-1 1.67302929516317922e-1 1.53869871888756074e-2;
  TG 3.44291606955017149e-1 4.88405463528664929e-1 1.53869871888756074e-2;
  TG 4.88405463528664929e-1 3.44291606955017149e-1 1.53869871888756074e-2;
  TG 1.58163355008146517e-1 2.25416234315506392e-1 1.11858073119177059e-2;
  TG 2.25416234315506392e-1 1.58163355008146517e-1 1.11858073119177059e-2;
  TG 1.58163355008146517e-1 6.16420410676347119e-1 1.11858073119177059e-2;
  TG 6.16420410676347119e-1 1.58163355008146517e-1 1.11858073119177059e-2;
  TG 2.25416234315506392e-1 6.16420410676347119e-1 1.11858073119177059e-2;
  TG 6.16420410676347119e-1 2.25416234315506392e-1 1.11858073119177059e-2;
  TG 1.63522521383875657e-1 8.06700831535318158e-2 1.03018457406702062e-2;
  TG 8.06700831535318158e-2 1.63522521383875657e-1 1.03018457406702062e-2;
  TG 1.63522521383875657e-1 7.55807395462592568e-1 1.03018457406702062e-2;
  TG 7.55807395462592568e-1 1.63522521383875657e-1 1.03018457406702062e-2;
  TG 8.06700831535318158e-2 7.55807395462592568e-1 1.03018457406702062e-2;
  TG 7.55807395462592568e-1 8.06700831535318158e-2 1.03018457406702062e-2;
  TG 6.24476804889597670e-1 6.59674513750509312e-2 1.17677830729770502e-2;
  TG 6.59674513750509312e-2 6.24476804889597670e-1 1.17677830729770502e-2;
  TG 6.24476804889597670e-1 3.09555743735351385e-1 1.17677830729770502e-2;
  TG 3.09555743735351385e-1 6.24476804889597670e-1 1.17677830729770502e-2;
  TG 6.59674513750509312e-2 3.09555743735351385e-1 1.17677830729770502e-2;
  TG 3.09555743735351385e-1 6.59674513750509312e-2 1.17677830729770502e-2;
  TG 8.73172499352444564e-1 4.56778798909967601e-2 3.80453128494312107e-3;
  TG 4.56778798909967601e-2 8.73172499352444564e-1 3.80453128494312107e-3;
  TG 8.73172499352444564e-1 8.11496207565586963e-2 3.80453128494312107e-3;
  TG 8.11496207565586963e-2 8.73172499352444564e-1 3.80453128494312107e-3;
  TG 4.56778798909967601e-2 8.11496207565586963e-2 3.80453128494312107e-3;
  TG 8.11496207565586963e-2 4.56778798909967601e-2 3.80453128494312107e-3;
  TG 3.44281643222826950e-1 1.15284117231542159e-2 4.51393021788763522e-3;
  TG 1.15284117231542159e-2 3.44281643222826950e-1 4.51393021788763522e-3;
  TG 3.44281643222826950e-1 6.44189945054018831e-1 4.51393021788763522e-3;
  TG 6.44189945054018831e-1 3.44281643222826950e-1 4.51393021788763522e-3;
  TG 1.15284117231542159e-2 6.44189945054018831e-1 4.51393021788763522e-3;
  TG 6.44189945054018831e-1 1.15284117231542159e-2 4.51393021788763522e-3;
  TG 9.15844844678136705e-2 9.30577143239006040e-3 2.21788125175805852e-3;
  TG 9.30577143239006040e-3 9.15844844678136705e-2 2.21788125175805852e-3;
  TG 9.15844844678136705e-2 8.99109744099796271e-1 2.21788125175805852e-3;
  TG 8.99109744099796271e-1 9.15844844678136705e-2 2.21788125175805852e-3;
  TG 9.30577143239006040e-3 8.99109744099796271e-1 2.21788125175805852e-3;
  TG 8.99109744099796271e-1 9.30577143239006040e-3 2.21788125175805852e-3;
  TG 2.01720880133789887e-1 1.59168141076198137e-2 5.22162715374836685e-3;
  TG 1.59168141076198137e-2 2.01720880133789887e-1 5.22162715374836685e-3;
  TG 2.01720880133789887e-1 7.82362305758590337e-1 5.22162715374836685e-3;
  TG 7.82362305758590337e-1 2.01720880133789887e-1 5.22162715374836685e-3;
  TG 1.59168141076198137e-2 7.82362305758590337e-1 5.22162715374836685e-3;
  TG 7.82362305758590337e-1 1.59168141076198137e-2 5.22162715374836685e-3;
  TG 9.65387627582546481e-1 1.07347331637640334e-2 9.83811363894702582e-4;
  TG 1.07347331637640334e-2 9.65387627582546481e-1 9.83811363894702582e-4;
  TG 9.65387627582546481e-1 2.38776392536895338e-2 9.83811363894702582e-4;
  TG 2.38776392536895338e-2 9.65387627582546481e-1 9.83811363894702582e-4;
  TG 1.07347331637640334e-2 2.38776392536895338e-2 9.83811363894702582e-4;
  TG 2.38776392536895338e-2 1.07347331637640334e-2 9.83811363894702582e-4 ].
(** quad_raw_triangle.hpp:823-897 *)
Definition triangle_gauss_rule_18 : list triangle_gauss_point := [
  TG 3.33333333333333315e-1 3.33333333333333315e-1 1.64531656944594991e-2;
  TG 2.07800258539869998e-2 4.89609987073006014e-1 5.16536594563599995e-3;
  TG 4.89609987073006014e-1 2.07800258539869998e-2 5.16536594563599995e-3;
  TG 4.89609987073006014e-1 4.89609987073006014e-1 5.16536594563599995e-3;
  TG 9.09262146042150027e-2 4.54536892697892991e-1 1.11936236315080002e-2;
  TG 4.54536892697892991e-1 9.09262146042150027e-2 1.11936236315080002e-2;
  TG 4.54536892697892991e-1 4.54536892697892991e-1 1.11936236315080002e-2;
  TG 1.97166638701137986e-1 4.01416680649430979e-1 1.51330629347339995e-2;
  TG 4.01416680649430979e-1 1.97166638701137986e-1 1.51330629347339995e-2;
  TG 4.01416680649430979e-1 4.01416680649430979e-1 1.51330629347339995e-2;
  TG 4.88896691193805022e-1 2.55551654403098016e-1 1.52454839010989999e-2;
  TG 2.55551654403098016e-1 4.88896691193805022e-1 1.52454839010989999e-2;
  TG 2.55551654403098016e-1 2.55551654403098016e-1 1.52454839010989999e-2;
  TG 6.45844115695740961e-1 1.77077942152129991e-1 1.20796063708205007e-2;
  TG 1.77077942152129991e-1 6.45844115695740961e-1 1.20796063708205007e-2;
  TG 1.77077942152129991e-1 1.77077942152129991e-1 1.20796063708205007e-2;
  TG 7.79877893544095979e-1 1.10061053227951997e-1 8.02540179340049953e-3;
  TG 1.10061053227951997e-1 7.79877893544095979e-1 8.02540179340049953e-3;
  TG 1.10061053227951997e-1 1.10061053227951997e-1 8.02540179340049953e-3;
  TG 8.88942751496320960e-1 5.55286242518399989e-2 4.04229013089199996e-3;
  TG 5.55286242518399989e-2 8.88942751496320960e-1 4.04229013089199996e-3;
  TG 5.55286242518399989e-2 5.55286242518399989e-2 4.04229013089199996e-3;
  TG 9.74756272445542971e-1 1.26218637772290004e-2 1.03968101374249996e-3;
  TG 1.26218637772290004e-2 9.74756272445542971e-1 1.03968101374249996e-3;
  TG 1.26218637772290004e-2 1.26218637772290004e-2 1.03968101374249996e-3;
  TG 3.61141784841199995e-3 3.95754787356943027e-1 1.94243845249050004e-3;
  TG 3.61141784841199995e-3 6.00633794794644960e-1 1.94243845249050004e-3;
  TG 3.95754787356943027e-1 3.61141784841199995e-3 1.94243845249050004e-3;
  TG 3.95754787356943027e-1 6.00633794794644960e-1 1.94243845249050004e-3;
  TG 6.00633794794644960e-1 3.61141784841199995e-3 1.94243845249050004e-3;
  TG 6.00633794794644960e-1 3.95754787356943027e-1 1.94243845249050004e-3;
  TG 1.34466754530779997e-1 3.07929983880436020e-1 1.27870803060110005e-2;
  TG 1.34466754530779997e-1 5.57603261588784038e-1 1.27870803060110005e-2;
  TG 3.07929983880436020e-1 1.34466754530779997e-1 1.27870803060110005e-2;
  TG 3.07929983880436020e-1 5.57603261588784038e-1 1.27870803060110005e-2;
  TG 5.57603261588784038e-1 1.34466754530779997e-1 1.27870803060110005e-2;
  TG 5.57603261588784038e-1 3.07929983880436020e-1 1.27870803060110005e-2;
  TG 1.44460257761149999e-2 2.64566948406520008e-1 4.44045178666899968e-3;
  TG 1.44460257761149999e-2 7.20987025817364957e-1 4.44045178666899968e-3;
  TG 2.64566948406520008e-1 1.44460257761149999e-2 4.44045178666899968e-3;
  TG 2.64566948406520008e-1 7.20987025817364957e-1 4.44045178666899968e-3;
  TG 7.20987025817364957e-1 1.44460257761149999e-2 4.44045178666899968e-3;
  TG 7.20987025817364957e-1 2.64566948406520008e-1 4.44045178666899968e-3;
  TG 4.69335788381780028e-2 3.58539352205951012e-1 8.06227338086550060e-3;
  TG 4.69335788381780028e-2 5.94527068955871041e-1 8.06227338086550060e-3;
  TG 3.58539352205951012e-1 4.69335788381780028e-2 8.06227338086550060e-3;
  TG 3.58539352205951012e-1 5.94527068955871041e-1 8.06227338086550060e-3;
  TG 5.94527068955871041e-1 4.69335788381780028e-2 8.06227338086550060e-3;
  TG 5.94527068955871041e-1 3.58539352205951012e-1 8.06227338086550060e-3;
  TG 2.86112035056699989e-3 1.57807405968594994e-1 1.24597090874549996e-3;
  TG 2.86112035056699989e-3 8.39331473680839046e-1 1.24597090874549996e-3;
  TG 1.57807405968594994e-1 2.86112035056699989e-3 1.24597090874549996e-3;
  TG 1.57807405968594994e-1 8.39331473680839046e-1 1.24597090874549996e-3;
  TG 8.39331473680839046e-1 2.86112035056699989e-3 1.24597090874549996e-3;
  TG 8.39331473680839046e-1 1.57807405968594994e-1 1.24597090874549996e-3;
  TG 2.23861424097916012e-1 7.50505969759110020e-2 9.12142005947550079e-3;
  TG 2.23861424097916012e-1 7.01087978926173028e-1 9.12142005947550079e-3;
  TG 7.50505969759110020e-2 2.23861424097916012e-1 9.12142005947550079e-3;
  TG 7.50505969759110020e-2 7.01087978926173028e-1 9.12142005947550079e-3;
  TG 7.01087978926173028e-1 2.23861424097916012e-1 9.12142005947550079e-3;
  TG 7.01087978926173028e-1 7.50505969759110020e-2 9.12142005947550079e-3;
  TG 3.46470748167599998e-2 1.42421601113383006e-1 5.12928186809949969e-3;
  TG 3.46470748167599998e-2 8.22931324069857029e-1 5.12928186809949969e-3;
  TG 1.42421601113383006e-1 3.46470748167599998e-2 5.12928186809949969e-3;
  TG 1.42421601113383006e-1 8.22931324069857029e-1 5.12928186809949969e-3;
  TG 8.22931324069857029e-1 3.46470748167599998e-2 5.12928186809949969e-3;
  TG 8.22931324069857029e-1 1.42421601113383006e-1 5.12928186809949969e-3;
  TG 1.01611192962780001e-2 6.54946280829380029e-2 1.89996442765099998e-3;
  TG 1.01611192962780001e-2 9.24344252620784013e-1 1.89996442765099998e-3;
  TG 6.54946280829380029e-2 1.01611192962780001e-2 1.89996442765099998e-3;
  TG 6.54946280829380029e-2 9.24344252620784013e-1 1.89996442765099998e-3;
  TG 9.24344252620784013e-1 1.01611192962780001e-2 1.89996442765099998e-3;
  TG 9.24344252620784013e-1 6.54946280829380029e-2 1.89996442765099998e-3 ].
(** quad_raw_triangle.hpp:899-973 *)
Definition triangle_gauss_rule_19 := triangle_gauss_rule_18.
(** quad_raw_triangle.hpp:975-1061 *)
Definition triangle_gauss_rule_20 : list triangle_gauss_point := [
  TG 3.33333333333329984e-1 3.33333333333329984e-1 1.38052134988497603e-2;
  TG 1.50064932442999996e-3 4.99249675337790022e-1 8.89514773663370017e-4;
  TG 4.99249675337790022e-1 1.50064932442999996e-3 8.89514773663370017e-4;
  TG 4.99249675337790022e-1 4.99249675337790022e-1 8.89514773663370017e-4;
  TG 9.41397519389499948e-2 4.52930124030520020e-1 1.00561990569805852e-2;
  TG 4.52930124030520020e-1 9.41397519389499948e-2 1.00561990569805852e-2;
  TG 4.52930124030520020e-1 4.52930124030520020e-1 1.00561990569805852e-2;
  TG 2.04472124089530000e-1 3.97763937955240010e-1 1.34089236296657845e-2;
  TG 3.97763937955240010e-1 2.04472124089530000e-1 1.34089236296657845e-2;
  TG 3.97763937955240010e-1 3.97763937955240010e-1 1.34089236296657845e-2;
  TG 4.70999594934429999e-1 2.64500202532789996e-1 1.22615669007510048e-2;
  TG 2.64500202532789996e-1 4.70999594934429999e-1 1.22615669007510048e-2;
  TG 2.64500202532789996e-1 2.64500202532789996e-1 1.22615669007510048e-2;
  TG 5.77962071815850020e-1 2.11018964092080014e-1 8.19728920534769541e-3;
  TG 2.11018964092080014e-1 5.77962071815850020e-1 8.19728920534769541e-3;
  TG 2.11018964092080014e-1 2.11018964092080014e-1 8.19728920534769541e-3;
  TG 7.84528785657459982e-1 1.07735607171269995e-1 7.39795369932479997e-3;
  TG 1.07735607171269995e-1 7.84528785657459982e-1 7.39795369932479997e-3;
  TG 1.07735607171269995e-1 1.07735607171269995e-1 7.39795369932479997e-3;
  TG 9.21861824324390011e-1 3.90690878377999984e-2 2.28964113885212536e-3;
  TG 3.90690878377999984e-2 9.21861824324390011e-1 2.28964113885212536e-3;
  TG 3.90690878377999984e-2 3.90690878377999984e-2 2.28964113885212536e-3;
  TG 9.77651240541340005e-1 1.11743797293300008e-2 8.25913257788108519e-4;
  TG 1.11743797293300008e-2 9.77651240541340005e-1 8.25913257788108519e-4;
  TG 1.11743797293300008e-2 1.11743797293300008e-2 8.25913257788108519e-4;
  TG 5.34961818733999984e-3 6.35496659083499976e-2 1.17458545428779197e-3;
  TG 5.34961818733999984e-3 9.31100715904309983e-1 1.17458545428779197e-3;
  TG 6.35496659083499976e-2 5.34961818733999984e-3 1.17458545428779197e-3;
  TG 6.35496659083499976e-2 9.31100715904309983e-1 1.17458545428779197e-3;
  TG 9.31100715904309983e-1 5.34961818733999984e-3 1.17458545428779197e-3;
  TG 9.31100715904309983e-1 6.35496659083499976e-2 1.17458545428779197e-3;
  TG 7.95481706619999979e-3 1.57106918940709994e-1 2.23296287709089667e-3;
  TG 7.95481706619999979e-3 8.34938263993090013e-1 2.23296287709089667e-3;
  TG 1.57106918940709994e-1 7.95481706619999979e-3 2.23296287709089667e-3;
  TG 1.57106918940709994e-1 8.34938263993090013e-1 2.23296287709089667e-3;
  TG 8.34938263993090013e-1 7.95481706619999979e-3 2.23296287709089667e-3;
  TG 8.34938263993090013e-1 1.57106918940709994e-1 2.23296287709089667e-3;
  TG 1.04223982812600008e-2 3.95642114364370023e-1 3.04978340395398607e-3;
  TG 1.04223982812600008e-2 5.93935487354359970e-1 3.04978340395398607e-3;
  TG 3.95642114364370023e-1 1.04223982812600008e-2 3.04978340395398607e-3;
  TG 3.95642114364370023e-1 5.93935487354359970e-1 3.04978340395398607e-3;
  TG 5.93935487354359970e-1 1.04223982812600008e-2 3.04978340395398607e-3;
  TG 5.93935487354359970e-1 3.95642114364370023e-1 3.04978340395398607e-3;
  TG 1.09644147961200002e-2 2.73167570712909979e-1 3.44554066359410152e-3;
  TG 1.09644147961200002e-2 7.15868014490970039e-1 3.44554066359410152e-3;
  TG 2.73167570712909979e-1 1.09644147961200002e-2 3.44554066359410152e-3;
  TG 2.73167570712909979e-1 7.15868014490970039e-1 3.44554066359410152e-3;
  TG 7.15868014490970039e-1 1.09644147961200002e-2 3.44554066359410152e-3;
  TG 7.15868014490970039e-1 2.73167570712909979e-1 3.44554066359410152e-3;
  TG 3.85667120854600032e-2 1.01785382485020004e-1 3.99873753623908139e-3;
  TG 3.85667120854600032e-2 8.59647905429519965e-1 3.99873753623908139e-3;
  TG 1.01785382485020004e-1 3.85667120854600032e-2 3.99873753623908139e-3;
  TG 1.01785382485020004e-1 8.59647905429519965e-1 3.99873753623908139e-3;
  TG 8.59647905429519965e-1 3.85667120854600032e-2 3.99873753623908139e-3;
  TG 8.59647905429519965e-1 1.01785382485020004e-1 3.99873753623908139e-3;
  TG 3.55805078172199973e-2 4.46658549176410014e-1 3.69306714266801192e-3;
  TG 3.55805078172199973e-2 5.17760943006369989e-1 3.69306714266801192e-3;
  TG 4.46658549176410014e-1 3.55805078172199973e-2 3.69306714266801192e-3;
  TG 4.46658549176410014e-1 5.17760943006369989e-1 3.69306714266801192e-3;
  TG 5.17760943006369989e-1 3.55805078172199973e-2 3.69306714266801192e-3;
  TG 5.17760943006369989e-1 4.46658549176410014e-1 3.69306714266801192e-3;
  TG 4.96708163627600022e-2 1.99010794149499987e-1 6.39966593932413032e-3;
  TG 4.96708163627600022e-2 7.51318389487729998e-1 6.39966593932413032e-3;
  TG 1.99010794149499987e-1 4.96708163627600022e-2 6.39966593932413032e-3;
  TG 1.99010794149499987e-1 7.51318389487729998e-1 6.39966593932413032e-3;
  TG 7.51318389487729998e-1 4.96708163627600022e-2 6.39966593932413032e-3;
  TG 7.51318389487729998e-1 1.99010794149499987e-1 6.39966593932413032e-3;
  TG 5.85197250843300029e-2 3.24261183692280019e-1 8.62903558784827544e-3;
  TG 5.85197250843300029e-2 6.17219091223390026e-1 8.62903558784827544e-3;
  TG 3.24261183692280019e-1 5.85197250843300029e-2 8.62903558784827544e-3;
  TG 3.24261183692280019e-1 6.17219091223390026e-1 8.62903558784827544e-3;
  TG 6.17219091223390026e-1 5.85197250843300029e-2 8.62903558784827544e-3;
  TG 6.17219091223390026e-1 3.24261183692280019e-1 8.62903558784827544e-3;
  TG 1.21497787004389998e-1 2.08531363210129994e-1 9.33647295146773464e-3;
  TG 1.21497787004389998e-1 6.69970849785469946e-1 9.33647295146773464e-3;
  TG 2.08531363210129994e-1 1.21497787004389998e-1 9.33647295146773464e-3;
  TG 2.08531363210129994e-1 6.69970849785469946e-1 9.33647295146773464e-3;
  TG 6.69970849785469946e-1 1.21497787004389998e-1 9.33647295146773464e-3;
  TG 6.69970849785469946e-1 2.08531363210129994e-1 9.33647295146773464e-3;
  TG 1.40710844943940011e-1 3.23170566536259973e-1 1.14091120291976295e-2;
  TG 1.40710844943940011e-1 5.36118588519799988e-1 1.14091120291976295e-2;
  TG 3.23170566536259973e-1 1.40710844943940011e-1 1.14091120291976295e-2;
  TG 3.23170566536259973e-1 5.36118588519799988e-1 1.14091120291976295e-2;
  TG 5.36118588519799988e-1 1.40710844943940011e-1 1.14091120291976295e-2;
  TG 5.36118588519799988e-1 3.23170566536259973e-1 1.14091120291976295e-2 ].
(** quad_raw_triangle.hpp:1063-1149 *)
Definition triangle_gauss_rule_21 := triangle_gauss_rule_20.
(** quad_raw_triangle.hpp:1151-1278 *)
Definition triangle_gauss_rule_22 : list triangle_gauss_point := [
  TG 2.79464830731699990e-2 4.86026758463409980e-1 4.00279094001020855e-3;
  TG 4.86026758463409980e-1 2.79464830731699990e-2 4.00279094001020855e-3;
  TG 4.86026758463409980e-1 4.86026758463409980e-1 4.00279094001020855e-3;
  TG 1.31178601327649996e-1 4.34410699336169992e-1 7.97353841619525064e-3;
  TG 4.34410699336169992e-1 1.31178601327649996e-1 7.97353841619525064e-3;
  TG 4.34410699336169992e-1 4.34410699336169992e-1 7.97353841619525064e-3;
  TG 2.20221729512070002e-1 3.89889135243960017e-1 6.55457061539776488e-3;
  TG 3.89889135243960017e-1 2.20221729512070002e-1 6.55457061539776488e-3;
  TG 3.89889135243960017e-1 3.89889135243960017e-1 6.55457061539776488e-3;
  TG 4.03113531960390015e-1 2.98443234019799997e-1 9.79150048281780989e-3;
  TG 2.98443234019799997e-1 4.03113531960390015e-1 9.79150048281780989e-3;
  TG 2.98443234019799997e-1 2.98443234019799997e-1 9.79150048281780989e-3;
  TG 5.31911655325259969e-1 2.34044172337369988e-1 8.23544272076863482e-3;
  TG 2.34044172337369988e-1 5.31911655325259969e-1 8.23544272076863482e-3;
  TG 2.34044172337369988e-1 2.34044172337369988e-1 8.23544272076863482e-3;
  TG 6.97063330781960033e-1 1.51468334609020011e-1 4.27363953704605008e-3;
  TG 1.51468334609020011e-1 6.97063330781960033e-1 4.27363953704605008e-3;
  TG 1.51468334609020011e-1 1.51468334609020011e-1 4.27363953704605008e-3;
  TG 7.74532212908009998e-1 1.12733893545990005e-1 4.08094292861324592e-3;
  TG 1.12733893545990005e-1 7.74532212908009998e-1 4.08094292861324592e-3;
  TG 1.12733893545990005e-1 1.12733893545990005e-1 4.08094292861324592e-3;
  TG 8.44568615816949975e-1 7.77156920915299948e-2 3.06057326999188955e-3;
  TG 7.77156920915299948e-2 8.44568615816949975e-1 3.06057326999188955e-3;
  TG 7.77156920915299948e-2 7.77156920915299948e-2 3.06057326999188955e-3;
  TG 9.30213812771410020e-1 3.48930936142999998e-2 1.45424913246833243e-3;
  TG 3.48930936142999998e-2 9.30213812771410020e-1 1.45424913246833243e-3;
  TG 3.48930936142999998e-2 3.48930936142999998e-2 1.45424913246833243e-3;
  TG 9.85483630758129947e-1 7.25818462093000012e-3 3.46137622830998144e-4;
  TG 7.25818462093000012e-3 9.85483630758129947e-1 3.46137622830998144e-4;
  TG 7.25818462093000012e-3 7.25818462093000012e-3 3.46137622830998144e-4;
  TG 1.29235270443999991e-3 2.27214452153360003e-1 6.24144599638698483e-4;
  TG 1.29235270443999991e-3 7.71493195142189947e-1 6.24144599638698483e-4;
  TG 2.27214452153360003e-1 1.29235270443999991e-3 6.24144599638698483e-4;
  TG 2.27214452153360003e-1 7.71493195142189947e-1 6.24144599638698483e-4;
  TG 7.71493195142189947e-1 1.29235270443999991e-3 6.24144599638698483e-4;
  TG 7.71493195142189947e-1 2.27214452153360003e-1 6.24144599638698483e-4;
  TG 5.39970127211999995e-3 4.35010554853569986e-1 1.70237645440151101e-3;
  TG 5.39970127211999995e-3 5.59589743874310042e-1 1.70237645440151101e-3;
  TG 4.35010554853569986e-1 5.39970127211999995e-3 1.70237645440151101e-3;
  TG 4.35010554853569986e-1 5.59589743874310042e-1 1.70237645440151101e-3;
  TG 5.59589743874310042e-1 5.39970127211999995e-3 1.70237645440151101e-3;
  TG 5.59589743874310042e-1 4.35010554853569986e-1 1.70237645440151101e-3;
  TG 6.38400303398000031e-3 3.20309599272199985e-1 1.67982716303202544e-3;
  TG 6.38400303398000031e-3 6.73306397693819947e-1 1.67982716303202544e-3;
  TG 3.20309599272199985e-1 6.38400303398000031e-3 1.67982716303202544e-3;
  TG 3.20309599272199985e-1 6.73306397693819947e-1 1.67982716303202544e-3;
  TG 6.73306397693819947e-1 6.38400303398000031e-3 1.67982716303202544e-3;
  TG 6.73306397693819947e-1 3.20309599272199985e-1 1.67982716303202544e-3;
  TG 5.02821150199000023e-3 9.17503222800099966e-2 8.58078269748377030e-4;
  TG 5.02821150199000023e-3 9.03221466218000035e-1 8.58078269748377030e-4;
  TG 9.17503222800099966e-2 5.02821150199000023e-3 8.58078269748377030e-4;
  TG 9.17503222800099966e-2 9.03221466218000035e-1 8.58078269748377030e-4;
  TG 9.03221466218000035e-1 5.02821150199000023e-3 8.58078269748377030e-4;
  TG 9.03221466218000035e-1 9.17503222800099966e-2 8.58078269748377030e-4;
  TG 6.82675862178000036e-3 3.80108358587199976e-2 7.40428158357803005e-4;
  TG 6.82675862178000036e-3 9.55162405519490054e-1 7.40428158357803005e-4;
  TG 3.80108358587199976e-2 6.82675862178000036e-3 7.40428158357803005e-4;
  TG 3.80108358587199976e-2 9.55162405519490054e-1 7.40428158357803005e-4;
  TG 9.55162405519490054e-1 6.82675862178000036e-3 7.40428158357803005e-4;
  TG 9.55162405519490054e-1 3.80108358587199976e-2 7.40428158357803005e-4;
  TG 1.00161996399299996e-2 1.57425218485309992e-1 1.75565630536434251e-3;
  TG 1.00161996399299996e-2 8.32558581874759951e-1 1.75565630536434251e-3;
  TG 1.57425218485309992e-1 1.00161996399299996e-2 1.75565630536434251e-3;
  TG 1.57425218485309992e-1 8.32558581874759951e-1 1.75565630536434251e-3;
  TG 8.32558581874759951e-1 1.00161996399299996e-2 1.75565630536434251e-3;
  TG 8.32558581874759951e-1 1.57425218485309992e-1 1.75565630536434251e-3;
  TG 2.57578131733900012e-2 2.39889659778529996e-1 3.69677507485324190e-3;
  TG 2.57578131733900012e-2 7.34352527048079962e-1 3.69677507485324190e-3;
  TG 2.39889659778529996e-1 2.57578131733900012e-2 3.69677507485324190e-3;
  TG 2.39889659778529996e-1 7.34352527048079962e-1 3.69677507485324190e-3;
  TG 7.34352527048079962e-1 2.57578131733900012e-2 3.69677507485324190e-3;
  TG 7.34352527048079962e-1 2.39889659778529996e-1 3.69677507485324190e-3;
  TG 3.02278981199200006e-2 3.61943118126060004e-1 3.99154373868827912e-3;
  TG 3.02278981199200006e-2 6.07828983754019947e-1 3.99154373868827912e-3;
  TG 3.61943118126060004e-1 3.02278981199200006e-2 3.99154373868827912e-3;
  TG 3.61943118126060004e-1 6.07828983754019947e-1 3.99154373868827912e-3;
  TG 6.07828983754019947e-1 3.02278981199200006e-2 3.99154373868827912e-3;
  TG 6.07828983754019947e-1 3.61943118126060004e-1 3.99154373868827912e-3;
  TG 3.05049901071599988e-2 8.35519609548300013e-2 2.17798130657902069e-3;
  TG 3.05049901071599988e-2 8.85943048938010014e-1 2.17798130657902069e-3;
  TG 8.35519609548300013e-2 3.05049901071599988e-2 2.17798130657902069e-3;
  TG 8.35519609548300013e-2 8.85943048938010014e-1 2.17798130657902069e-3;
  TG 8.85943048938010014e-1 3.05049901071599988e-2 2.17798130657902069e-3;
  TG 8.85943048938010014e-1 8.35519609548300013e-2 2.17798130657902069e-3;
  TG 4.59565473625700022e-2 1.48443220732420000e-1 3.68252835070891592e-3;
  TG 4.59565473625700022e-2 8.05600231905009956e-1 3.68252835070891592e-3;
  TG 1.48443220732420000e-1 4.59565473625700022e-2 3.68252835070891592e-3;
  TG 1.48443220732420000e-1 8.05600231905009956e-1 3.68252835070891592e-3;
  TG 8.05600231905009956e-1 4.59565473625700022e-2 3.68252835070891592e-3;
  TG 8.05600231905009956e-1 1.48443220732420000e-1 3.68252835070891592e-3;
  TG 6.74428005402799985e-2 2.83739708727530016e-1 5.48178642320977516e-3;
  TG 6.74428005402799985e-2 6.48817490732189972e-1 5.48178642320977516e-3;
  TG 2.83739708727530016e-1 6.74428005402799985e-2 5.48178642320977516e-3;
  TG 2.83739708727530016e-1 6.48817490732189972e-1 5.48178642320977516e-3;
  TG 6.48817490732189972e-1 6.74428005402799985e-2 5.48178642320977516e-3;
  TG 6.48817490732189972e-1 2.83739708727530016e-1 5.48178642320977516e-3;
  TG 7.00450914159100047e-2 4.06899375118789985e-1 5.87498087177056039e-3;
  TG 7.00450914159100047e-2 5.23055533465299982e-1 5.87498087177056039e-3;
  TG 4.06899375118789985e-1 7.00450914159100047e-2 5.87498087177056039e-3;
  TG 4.06899375118789985e-1 5.23055533465299982e-1 5.87498087177056039e-3;
  TG 5.23055533465299982e-1 7.00450914159100047e-2 5.87498087177056039e-3;
  TG 5.23055533465299982e-1 4.06899375118789985e-1 5.87498087177056039e-3;
  TG 8.39115246401199999e-2 1.94113987024889995e-1 5.00780035689928505e-3;
  TG 8.39115246401199999e-2 7.21974488334990006e-1 5.00780035689928505e-3;
  TG 1.94113987024889995e-1 8.39115246401199999e-2 5.00780035689928505e-3;
  TG 1.94113987024889995e-1 7.21974488334990006e-1 5.00780035689928505e-3;
  TG 7.21974488334990006e-1 8.39115246401199999e-2 5.00780035689928505e-3;
  TG 7.21974488334990006e-1 1.94113987024889995e-1 5.00780035689928505e-3;
  TG 1.20375535677149995e-1 3.24134347000699985e-1 6.65482039381434017e-3;
  TG 1.20375535677149995e-1 5.55490117322140042e-1 6.65482039381434017e-3;
  TG 3.24134347000699985e-1 1.20375535677149995e-1 6.65482039381434017e-3;
  TG 3.24134347000699985e-1 5.55490117322140042e-1 6.65482039381434017e-3;
  TG 5.55490117322140042e-1 1.20375535677149995e-1 6.65482039381434017e-3;
  TG 5.55490117322140042e-1 3.24134347000699985e-1 6.65482039381434017e-3;
  TG 1.48066899157370008e-1 2.29277483555979988e-1 7.07722325261306989e-3;
  TG 1.48066899157370008e-1 6.22655617286649976e-1 7.07722325261306989e-3;
  TG 2.29277483555979988e-1 1.48066899157370008e-1 7.07722325261306989e-3;
  TG 2.29277483555979988e-1 6.22655617286649976e-1 7.07722325261306989e-3;
  TG 6.22655617286649976e-1 1.48066899157370008e-1 7.07722325261306989e-3;
  TG 6.22655617286649976e-1 2.29277483555979988e-1 7.07722325261306989e-3;
  TG 1.91771865867329999e-1 3.25618122595979997e-1 7.44068978058400488e-3;
  TG 1.91771865867329999e-1 4.82610011536689976e-1 7.44068978058400488e-3;
  TG 3.25618122595979997e-1 1.91771865867329999e-1 7.44068978058400488e-3;
  TG 3.25618122595979997e-1 4.82610011536689976e-1 7.44068978058400488e-3;
  TG 4.82610011536689976e-1 1.91771865867329999e-1 7.44068978058400488e-3;
  TG 4.82610011536689976e-1 3.25618122595979997e-1 7.44068978058400488e-3 ].
(** quad_raw_triangle.hpp:1280-1407 *)
Definition triangle_gauss_rule_23 := triangle_gauss_rule_22.
(** quad_raw_triangle.hpp:1409-1536 *)
Definition triangle_gauss_rule_24 := triangle_gauss_rule_22.
(** quad_raw_triangle.hpp:1538-1665 *)
Definition triangle_gauss_rule_25 := triangle_gauss_rule_22.
(** quad_raw_triangle.hpp:1667-1843 *)
Definition triangle_gauss_rule_26 : list triangle_gauss_point := [
  TG 3.33333333333329984e-1 3.33333333333329984e-1 7.78998010144959976e-3;
  TG 7.33011643276999976e-3 4.96334941783619976e-1 1.58861685026706698e-3;
  TG 4.96334941783619976e-1 7.33011643276999976e-3 1.58861685026706698e-3;
  TG 4.96334941783619976e-1 4.96334941783619976e-1 1.58861685026706698e-3;
  TG 8.29956758029599950e-2 4.58502162098520016e-1 5.24171331786538533e-3;
  TG 4.58502162098520016e-1 8.29956758029599950e-2 5.24171331786538533e-3;
  TG 4.58502162098520016e-1 4.58502162098520016e-1 5.24171331786538533e-3;
  TG 1.50980956125409987e-1 4.24509521937290024e-1 6.60472978887181525e-3;
  TG 4.24509521937290024e-1 1.50980956125409987e-1 6.60472978887181525e-3;
  TG 4.24509521937290024e-1 4.24509521937290024e-1 6.60472978887181525e-3;
  TG 2.35905859892170000e-1 3.82047070053920024e-1 7.48750348313574968e-3;
  TG 3.82047070053920024e-1 2.35905859892170000e-1 7.48750348313574968e-3;
  TG 3.82047070053920024e-1 3.82047070053920024e-1 7.48750348313574968e-3;
  TG 4.38024308407850005e-1 2.80987845796079994e-1 7.49395222169209514e-3;
  TG 2.80987845796079994e-1 4.38024308407850005e-1 7.49395222169209514e-3;
  TG 2.80987845796079994e-1 2.80987845796079994e-1 7.49395222169209514e-3;
  TG 5.45302048291929964e-1 2.27348975854029994e-1 6.66943237051082979e-3;
  TG 2.27348975854029994e-1 5.45302048291929964e-1 6.66943237051082979e-3;
  TG 2.27348975854029994e-1 2.27348975854029994e-1 6.66943237051082979e-3;
  TG 6.50881776982540017e-1 1.74559111508729992e-1 5.44458555695100533e-3;
  TG 1.74559111508729992e-1 6.50881776982540017e-1 5.44458555695100533e-3;
  TG 1.74559111508729992e-1 1.74559111508729992e-1 5.44458555695100533e-3;
  TG 7.53483145597130033e-1 1.23258427201439993e-1 4.09472033044673035e-3;
  TG 1.23258427201439993e-1 7.53483145597130033e-1 4.09472033044673035e-3;
  TG 1.23258427201439993e-1 1.23258427201439993e-1 4.09472033044673035e-3;
  TG 8.39831542215609961e-1 8.00842288922000017e-2 2.78769379430389257e-3;
  TG 8.00842288922000017e-2 8.39831542215609961e-1 2.78769379430389257e-3;
  TG 8.00842288922000017e-2 8.00842288922000017e-2 2.78769379430389257e-3;
  TG 9.04451065184200043e-1 4.77744674078999995e-2 1.59560823670598802e-3;
  TG 4.77744674078999995e-2 9.04451065184200043e-1 1.59560823670598802e-3;
  TG 4.77744674078999995e-2 4.77744674078999995e-2 1.59560823670598802e-3;
  TG 9.56558970639719952e-1 2.17205146801399997e-2 6.48357572163522520e-4;
  TG 2.17205146801399997e-2 9.56558970639719952e-1 6.48357572163522520e-4;
  TG 2.17205146801399997e-2 2.17205146801399997e-2 6.48357572163522520e-4;
  TG 9.90470644769130049e-1 4.76467761544000033e-3 1.49131413067458594e-4;
  TG 4.76467761544000033e-3 9.90470644769130049e-1 1.49131413067458594e-4;
  TG 4.76467761544000033e-3 4.76467761544000033e-3 1.49131413067458594e-4;
  TG 9.25371193349999992e-4 4.15295270913309977e-1 4.99452842539448204e-4;
  TG 9.25371193349999992e-4 5.83779357893340012e-1 4.99452842539448204e-4;
  TG 4.15295270913309977e-1 9.25371193349999992e-4 4.99452842539448204e-4;
  TG 4.15295270913309977e-1 5.83779357893340012e-1 4.99452842539448204e-4;
  TG 5.83779357893340012e-1 9.25371193349999992e-4 4.99452842539448204e-4;
  TG 5.83779357893340012e-1 4.15295270913309977e-1 4.99452842539448204e-4;
  TG 1.38592585556000011e-3 6.11899097853500010e-2 2.31425424586626655e-4;
  TG 1.38592585556000011e-3 9.37424164359090040e-1 2.31425424586626655e-4;
  TG 6.11899097853500010e-2 1.38592585556000011e-3 2.31425424586626655e-4;
  TG 6.11899097853500010e-2 9.37424164359090040e-1 2.31425424586626655e-4;
  TG 9.37424164359090040e-1 1.38592585556000011e-3 2.31425424586626655e-4;
  TG 9.37424164359090040e-1 6.11899097853500010e-2 2.31425424586626655e-4;
  TG 3.68241545590999994e-3 1.64908690136910008e-1 6.17225668191206467e-4;
  TG 3.68241545590999994e-3 8.31408894407180021e-1 6.17225668191206467e-4;
  TG 1.64908690136910008e-1 3.68241545590999994e-3 6.17225668191206467e-4;
  TG 1.64908690136910008e-1 8.31408894407180021e-1 6.17225668191206467e-4;
  TG 8.31408894407180021e-1 3.68241545590999994e-3 6.17225668191206467e-4;
  TG 8.31408894407180021e-1 1.64908690136910008e-1 6.17225668191206467e-4;
  TG 3.90322342416000003e-3 2.50350622319999994e-2 2.85359926121603075e-4;
  TG 3.90322342416000003e-3 9.71061714343840032e-1 2.85359926121603075e-4;
  TG 2.50350622319999994e-2 3.90322342416000003e-3 2.85359926121603075e-4;
  TG 2.50350622319999994e-2 9.71061714343840032e-1 2.85359926121603075e-4;
  TG 9.71061714343840032e-1 3.90322342416000003e-3 2.85359926121603075e-4;
  TG 9.71061714343840032e-1 2.50350622319999994e-2 2.85359926121603075e-4;
  TG 3.23324815500999983e-3 3.06064465151099974e-1 5.63473062938812030e-4;
  TG 3.23324815500999983e-3 6.90702286693890000e-1 5.63473062938812030e-4;
  TG 3.06064465151099974e-1 3.23324815500999983e-3 5.63473062938812030e-4;
  TG 3.06064465151099974e-1 6.90702286693890000e-1 5.63473062938812030e-4;
  TG 6.90702286693890000e-1 3.23324815500999983e-3 5.63473062938812030e-4;
  TG 6.90702286693890000e-1 3.06064465151099974e-1 5.63473062938812030e-4;
  TG 6.46743211223999980e-3 1.07073283730220001e-1 8.73933474703668541e-4;
  TG 6.46743211223999980e-3 8.86459284157540051e-1 8.73933474703668541e-4;
  TG 1.07073283730220001e-1 6.46743211223999980e-3 8.73933474703668541e-4;
  TG 1.07073283730220001e-1 8.86459284157540051e-1 8.73933474703668541e-4;
  TG 8.86459284157540051e-1 6.46743211223999980e-3 8.73933474703668541e-4;
  TG 8.86459284157540051e-1 1.07073283730220001e-1 8.73933474703668541e-4;
  TG 3.24747549132999979e-3 2.29957549345579992e-1 5.91409407515828471e-4;
  TG 3.24747549132999979e-3 7.66794975163080039e-1 5.91409407515828471e-4;
  TG 2.29957549345579992e-1 3.24747549132999979e-3 5.91409407515828471e-4;
  TG 2.29957549345579992e-1 7.66794975163080039e-1 5.91409407515828471e-4;
  TG 7.66794975163080039e-1 3.24747549132999979e-3 5.91409407515828471e-4;
  TG 7.66794975163080039e-1 2.29957549345579992e-1 5.91409407515828471e-4;
  TG 8.67509080675000002e-3 3.37036633305779987e-1 9.95419647337516915e-4;
  TG 8.67509080675000002e-3 6.54288275887459969e-1 9.95419647337516915e-4;
  TG 3.37036633305779987e-1 8.67509080675000002e-3 9.95419647337516915e-4;
  TG 3.37036633305779987e-1 6.54288275887459969e-1 9.95419647337516915e-4;
  TG 6.54288275887459969e-1 8.67509080675000002e-3 9.95419647337516915e-4;
  TG 6.54288275887459969e-1 3.37036633305779987e-1 9.95419647337516915e-4;
  TG 1.55970264673099997e-2 5.62565761820600016e-2 9.50206397517989977e-4;
  TG 1.55970264673099997e-2 9.28146397350629981e-1 9.50206397517989977e-4;
  TG 5.62565761820600016e-2 1.55970264673099997e-2 9.50206397517989977e-4;
  TG 5.62565761820600016e-2 9.28146397350629981e-1 9.50206397517989977e-4;
  TG 9.28146397350629981e-1 1.55970264673099997e-2 9.50206397517989977e-4;
  TG 9.28146397350629981e-1 5.62565761820600016e-2 9.50206397517989977e-4;
  TG 1.79767212536900006e-2 4.02451375212399987e-1 2.24918290440872561e-3;
  TG 1.79767212536900006e-2 5.79571903533909971e-1 2.24918290440872561e-3;
  TG 4.02451375212399987e-1 1.79767212536900006e-2 2.24918290440872561e-3;
  TG 4.02451375212399987e-1 5.79571903533909971e-1 2.24918290440872561e-3;
  TG 5.79571903533909971e-1 1.79767212536900006e-2 2.24918290440872561e-3;
  TG 5.79571903533909971e-1 4.02451375212399987e-1 2.24918290440872561e-3;
  TG 1.71242453538900004e-2 2.43654702010830004e-1 1.73935973013735943e-3;
  TG 1.71242453538900004e-2 7.39221052635280040e-1 1.73935973013735943e-3;
  TG 2.43654702010830004e-1 1.71242453538900004e-2 1.73935973013735943e-3;
  TG 2.43654702010830004e-1 7.39221052635280040e-1 1.73935973013735943e-3;
  TG 7.39221052635280040e-1 1.71242453538900004e-2 1.73935973013735943e-3;
  TG 7.39221052635280040e-1 2.43654702010830004e-1 1.73935973013735943e-3;
  TG 2.28834053465799998e-2 1.65389585614529988e-1 2.05119951836197668e-3;
  TG 2.28834053465799998e-2 8.11727009038879954e-1 2.05119951836197668e-3;
  TG 1.65389585614529988e-1 2.28834053465799998e-2 2.05119951836197668e-3;
  TG 1.65389585614529988e-1 8.11727009038879954e-1 2.05119951836197668e-3;
  TG 8.11727009038879954e-1 2.28834053465799998e-2 2.05119951836197668e-3;
  TG 8.11727009038879954e-1 1.65389585614529988e-1 2.05119951836197668e-3;
  TG 3.27375972877700025e-2 9.93018744958499983e-2 2.01088077487208104e-3;
  TG 3.27375972877700025e-2 8.67960528216390026e-1 2.01088077487208104e-3;
  TG 9.93018744958499983e-2 3.27375972877700025e-2 2.01088077487208104e-3;
  TG 9.93018744958499983e-2 8.67960528216390026e-1 2.01088077487208104e-3;
  TG 8.67960528216390026e-1 3.27375972877700025e-2 2.01088077487208104e-3;
  TG 8.67960528216390026e-1 9.93018744958499983e-2 2.01088077487208104e-3;
  TG 3.38210123423400011e-2 3.08478333069049981e-1 3.01658233039753297e-3;
  TG 3.38210123423400011e-2 6.57700654588600053e-1 3.01658233039753297e-3;
  TG 3.08478333069049981e-1 3.38210123423400011e-2 3.01658233039753297e-3;
  TG 3.08478333069049981e-1 6.57700654588600053e-1 3.01658233039753297e-3;
  TG 6.57700654588600053e-1 3.38210123423400011e-2 3.01658233039753297e-3;
  TG 6.57700654588600053e-1 3.08478333069049981e-1 3.01658233039753297e-3;
  TG 3.55476144600199995e-2 4.60668318592109993e-1 1.97314515106479906e-3;
  TG 3.55476144600199995e-2 5.03784066947870035e-1 1.97314515106479906e-3;
  TG 4.60668318592109993e-1 3.55476144600199995e-2 1.97314515106479906e-3;
  TG 4.60668318592109993e-1 5.03784066947870035e-1 1.97314515106479906e-3;
  TG 5.03784066947870035e-1 3.55476144600199995e-2 1.97314515106479906e-3;
  TG 5.03784066947870035e-1 4.60668318592109993e-1 1.97314515106479906e-3;
  TG 5.05397903068700027e-2 2.18815299453929996e-1 3.32202226884013418e-3;
  TG 5.05397903068700027e-2 7.30644910239199974e-1 3.32202226884013418e-3;
  TG 2.18815299453929996e-1 5.05397903068700027e-2 3.32202226884013418e-3;
  TG 2.18815299453929996e-1 7.30644910239199974e-1 3.32202226884013418e-3;
  TG 7.30644910239199974e-1 5.05397903068700027e-2 3.32202226884013418e-3;
  TG 7.30644910239199974e-1 2.18815299453929996e-1 3.32202226884013418e-3;
  TG 5.70147149157299998e-2 3.79209551560269975e-1 4.12715292803922905e-3;
  TG 5.70147149157299998e-2 5.63775733523990019e-1 4.12715292803922905e-3;
  TG 3.79209551560269975e-1 5.70147149157299998e-2 4.12715292803922905e-3;
  TG 3.79209551560269975e-1 5.63775733523990019e-1 4.12715292803922905e-3;
  TG 5.63775733523990019e-1 5.70147149157299998e-2 4.12715292803922905e-3;
  TG 5.63775733523990019e-1 3.79209551560269975e-1 4.12715292803922905e-3;
  TG 6.41528064211999982e-2 1.42960819418189999e-1 3.24802831670320535e-3;
  TG 6.41528064211999982e-2 7.92886374160610030e-1 3.24802831670320535e-3;
  TG 1.42960819418189999e-1 6.41528064211999982e-2 3.24802831670320535e-3;
  TG 1.42960819418189999e-1 7.92886374160610030e-1 3.24802831670320535e-3;
  TG 7.92886374160610030e-1 6.41528064211999982e-2 3.24802831670320535e-3;
  TG 7.92886374160610030e-1 1.42960819418189999e-1 3.24802831670320535e-3;
  TG 8.05011482876299977e-2 2.83731282105920024e-1 4.62638907207330117e-3;
  TG 8.05011482876299977e-2 6.35767569606449978e-1 4.62638907207330117e-3;
  TG 2.83731282105920024e-1 8.05011482876299977e-2 4.62638907207330117e-3;
  TG 2.83731282105920024e-1 6.35767569606449978e-1 4.62638907207330117e-3;
  TG 6.35767569606449978e-1 8.05011482876299977e-2 4.62638907207330117e-3;
  TG 6.35767569606449978e-1 2.83731282105920024e-1 4.62638907207330117e-3;
  TG 1.04367068134530006e-1 1.96737441004439989e-1 4.58246036314713997e-3;
  TG 1.04367068134530006e-1 6.98895490861029978e-1 4.58246036314713997e-3;
  TG 1.96737441004439989e-1 1.04367068134530006e-1 4.58246036314713997e-3;
  TG 1.96737441004439989e-1 6.98895490861029978e-1 4.58246036314713997e-3;
  TG 6.98895490861029978e-1 1.04367068134530006e-1 4.58246036314713997e-3;
  TG 6.98895490861029978e-1 1.96737441004439989e-1 4.58246036314713997e-3;
  TG 1.13844894428749996e-1 3.55889141211659987e-1 5.78476231404883526e-3;
  TG 1.13844894428749996e-1 5.30265964359589947e-1 5.78476231404883526e-3;
  TG 3.55889141211659987e-1 1.13844894428749996e-1 5.78476231404883526e-3;
  TG 3.55889141211659987e-1 5.30265964359589947e-1 5.78476231404883526e-3;
  TG 5.30265964359589947e-1 1.13844894428749996e-1 5.78476231404883526e-3;
  TG 5.30265964359589947e-1 3.55889141211659987e-1 5.78476231404883526e-3;
  TG 1.45363487715519990e-1 2.59818685351909995e-1 5.88055823380458521e-3;
  TG 1.45363487715519990e-1 5.94817826932560023e-1 5.88055823380458521e-3;
  TG 2.59818685351909995e-1 1.45363487715519990e-1 5.88055823380458521e-3;
  TG 2.59818685351909995e-1 5.94817826932560023e-1 5.88055823380458521e-3;
  TG 5.94817826932560023e-1 1.45363487715519990e-1 5.88055823380458521e-3;
  TG 5.94817826932560023e-1 2.59818685351909995e-1 5.88055823380458521e-3;
  TG 1.89945652821980004e-1 3.21923181231299982e-1 6.91235109108270015e-3;
  TG 1.89945652821980004e-1 4.88131165946720014e-1 6.91235109108270015e-3;
  TG 3.21923181231299982e-1 1.89945652821980004e-1 6.91235109108270015e-3;
  TG 3.21923181231299982e-1 4.88131165946720014e-1 6.91235109108270015e-3;
  TG 4.88131165946720014e-1 1.89945652821980004e-1 6.91235109108270015e-3;
  TG 4.88131165946720014e-1 3.21923181231299982e-1 6.91235109108270015e-3 ].
(** quad_raw_triangle.hpp:1845-2021 *)
Definition triangle_gauss_rule_27 := triangle_gauss_rule_26.
(** quad_raw_triangle.hpp:2023-2199 *)
Definition triangle_gauss_rule_28 := triangle_gauss_rule_26.
(** quad_raw_triangle.hpp:2201-2377 *)
Definition triangle_gauss_rule_29 := triangle_gauss_rule_26.
(** quad_raw_triangle.hpp:2379-2555 *)
Definition triangle_gauss_rule_30 := triangle_gauss_rule_26.
(** quad_raw_triangle.hpp:259-281, including the terminator *)
Definition dunavant_rules : list (list dunavant_point) := [
dunavant_rule_1; dunavant_rule_2; dunavant_rule_3; dunavant_rule_4; dunavant_rule_5; dunavant_rule_6; dunavant_rule_7; dunavant_rule_8; dunavant_rule_9; dunavant_rule_10; dunavant_rule_11; dunavant_rule_12; dunavant_rule_13; dunavant_rule_14; dunavant_rule_15; dunavant_rule_16; dunavant_rule_17; dunavant_rule_18; dunavant_rule_19; dunavant_rule_20; [] ].
(** quad_raw_triangle.hpp:2562-2594, including the terminator *)
Definition triangle_gauss_rules : list (list triangle_gauss_point) := [
triangle_gauss_rule_1; triangle_gauss_rule_2; triangle_gauss_rule_3; triangle_gauss_rule_4; triangle_gauss_rule_5; triangle_gauss_rule_6; triangle_gauss_rule_7; triangle_gauss_rule_8; triangle_gauss_rule_9; triangle_gauss_rule_10; triangle_gauss_rule_11; triangle_gauss_rule_12; triangle_gauss_rule_13; triangle_gauss_rule_14; triangle_gauss_rule_15; triangle_gauss_rule_16; triangle_gauss_rule_17; triangle_gauss_rule_18; triangle_gauss_rule_19; triangle_gauss_rule_20; triangle_gauss_rule_21; triangle_gauss_rule_22; triangle_gauss_rule_23; triangle_gauss_rule_24; triangle_gauss_rule_25; triangle_gauss_rule_26; triangle_gauss_rule_27; triangle_gauss_rule_28; triangle_gauss_rule_29; triangle_gauss_rule_30; [] ].
