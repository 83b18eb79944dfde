(** Gauss-Legendre and Gauss-Lobatto quadratures.

    Models libdiskpp/include/diskpp/quadratures/bits/quad_raw_gauss.hpp,
    quad_raw_gauss_lobatto.hpp and the closed-form part of
    quadratures/quad_bones.hpp.

    Simplifications: the scalar type is exact (R); the printed decimals of the
    tables are read as exact rationals (the compiler rounds each of them to a
    double, a relative change below 2^-53); [std::vector] is a list;
    [reserve] is dropped. *)
From Coq Require Import List ZArith QArith Reals Qreals.
From Verif Require Import Common Poly_Spec.
Import ListNotations.

(** quad_raw_gauss.hpp:13-16, quad_raw_gauss_lobatto.hpp:23-26: {point, weight} *)
Definition table1 := list (Q * Q).

Open Scope Q_scope.
(** quad_raw_gauss.hpp:19-21 *)
Definition gauss_rule_1 : table1 := [
  (0, 2) ].
(** quad_raw_gauss.hpp:23-26 *)
Definition gauss_rule_2 : table1 := [
  (-0.577350269189626, 1);
  (0.577350269189626, 1) ].
(** quad_raw_gauss.hpp:28-32 *)
Definition gauss_rule_3 : table1 := [
  (-0.774596669241483, 0.555555555555556);
  (0, 0.888888888888889);
  (0.774596669241483, 0.555555555555556) ].
(** quad_raw_gauss.hpp:34-39 *)
Definition gauss_rule_4 : table1 := [
  (-0.861136311594053, 0.347854845137454);
  (-0.339981043584856, 0.652145154862546);
  (0.339981043584856, 0.652145154862546);
  (0.861136311594052, 0.347854845137453) ].
(** quad_raw_gauss.hpp:41-47 *)
Definition gauss_rule_5 : table1 := [
  (-0.906179845938664, 0.236926885056189);
  (-0.538469310105683, 0.478628670499366);
  (0, 0.568888888888889);
  (0.538469310105683, 0.478628670499367);
  (0.906179845938664, 0.236926885056189) ].
(** quad_raw_gauss.hpp:49-56 *)
Definition gauss_rule_6 : table1 := [
  (-0.932469514203152, 0.17132449237917);
  (-0.661209386466264, 0.360761573048138);
  (-0.238619186083197, 0.467913934572691);
  (0.238619186083197, 0.467913934572691);
  (0.661209386466264, 0.360761573048138);
  (0.932469514203152, 0.171324492379171) ].
(** quad_raw_gauss.hpp:58-66 *)
Definition gauss_rule_7 : table1 := [
  (-0.949107912342759, 0.12948496616887);
  (-0.741531185599394, 0.279705391489276);
  (-0.405845151377397, 0.381830050505119);
  (0, 0.417959183673469);
  (0.405845151377397, 0.381830050505119);
  (0.741531185599394, 0.279705391489276);
  (0.949107912342758, 0.12948496616887) ].
(** quad_raw_gauss.hpp:68-77 *)
Definition gauss_rule_8 : table1 := [
  (-0.960289856497536, 0.101228536290376);
  (-0.796666477413627, 0.222381034453375);
  (-0.525532409916329, 0.313706645877887);
  (-0.18343464249565, 0.362683783378362);
  (0.18343464249565, 0.362683783378362);
  (0.525532409916329, 0.313706645877888);
  (0.796666477413627, 0.222381034453374);
  (0.960289856497536, 0.101228536290377) ].
(** quad_raw_gauss.hpp:79-89 *)
Definition gauss_rule_9 : table1 := [
  (-0.968160239507626, 0.0812743883615746);
  (-0.836031107326636, 0.180648160694858);
  (-0.61337143270059, 0.260610696402936);
  (-0.324253423403809, 0.312347077040003);
  (0, 0.33023935500126);
  (0.324253423403809, 0.312347077040003);
  (0.613371432700591, 0.260610696402936);
  (0.836031107326637, 0.180648160694857);
  (0.968160239507627, 0.0812743883615752) ].
(** quad_raw_gauss.hpp:91-102 *)
Definition gauss_rule_10 : table1 := [
  (-0.973906528517171, 0.0666713443086882);
  (-0.865063366688984, 0.14945134915058);
  (-0.679409568299024, 0.219086362515982);
  (-0.433395394129247, 0.269266719309996);
  (-0.148874338981631, 0.295524224714753);
  (0.148874338981631, 0.295524224714753);
  (0.433395394129247, 0.269266719309997);
  (0.679409568299025, 0.219086362515982);
  (0.865063366688985, 0.149451349150582);
  (0.973906528517172, 0.0666713443086878) ].
(** quad_raw_gauss.hpp:104-116 *)
Definition gauss_rule_11 : table1 := [
  (-0.978228658146058, 0.0556685671161741);
  (-0.887062599768096, 0.125580369464904);
  (-0.73015200557405, 0.186290210927735);
  (-0.519096129206812, 0.233193764591991);
  (-0.269543155952345, 0.262804544510247);
  (0, 0.272925086777901);
  (0.269543155952345, 0.262804544510247);
  (0.519096129206813, 0.233193764591992);
  (0.73015200557405, 0.186290210927734);
  (0.887062599768097, 0.125580369464905);
  (0.978228658146058, 0.0556685671161723) ].
(** quad_raw_gauss.hpp:118-131 *)
Definition gauss_rule_12 : table1 := [
  (-0.981560634246719, 0.0471753363865106);
  (-0.904117256370475, 0.106939325995319);
  (-0.769902674194305, 0.160078328543347);
  (-0.587317954286618, 0.203167426723066);
  (-0.36783149899818, 0.233492536538355);
  (-0.125233408511469, 0.249147045813402);
  (0.125233408511469, 0.249147045813403);
  (0.36783149899818, 0.233492536538355);
  (0.587317954286617, 0.203167426723066);
  (0.769902674194304, 0.160078328543346);
  (0.904117256370473, 0.106939325995317);
  (0.981560634246718, 0.047175336386512) ].
(** quad_raw_gauss.hpp:133-147 *)
Definition gauss_rule_13 : table1 := [
  (-0.984183054718589, 0.0404840047653166);
  (-0.917598399222978, 0.0921214998377284);
  (-0.80157809073331, 0.138873510219787);
  (-0.64234933944034, 0.178145980761946);
  (-0.448492751036447, 0.207816047536889);
  (-0.230458315955135, 0.226283180262897);
  (0, 0.232551553230875);
  (0.230458315955135, 0.226283180262897);
  (0.448492751036447, 0.207816047536888);
  (0.64234933944034, 0.178145980761946);
  (0.80157809073331, 0.138873510219787);
  (0.917598399222979, 0.0921214998377297);
  (0.984183054718589, 0.0404840047653156) ].
(** quad_raw_gauss.hpp:149-164 *)
Definition gauss_rule_14 : table1 := [
  (-0.986283808696813, 0.0351194603317527);
  (-0.928434883663573, 0.0801580871597601);
  (-0.827201315069765, 0.121518570687902);
  (-0.687292904811685, 0.157203167158194);
  (-0.515248636358154, 0.185538397477938);
  (-0.31911236892789, 0.205198463721296);
  (-0.108054948707344, 0.215263853463158);
  (0.108054948707344, 0.215263853463158);
  (0.31911236892789, 0.205198463721296);
  (0.515248636358154, 0.185538397477938);
  (0.687292904811686, 0.157203167158195);
  (0.827201315069764, 0.121518570687902);
  (0.928434883663573, 0.0801580871597608);
  (0.986283808696812, 0.035119460331751) ].
(** quad_raw_gauss.hpp:166-182 *)
Definition gauss_rule_15 : table1 := [
  (-0.987992518020485, 0.0307532419961169);
  (-0.937273392400705, 0.0703660474881079);
  (-0.848206583410427, 0.107159220467172);
  (-0.72441773136017, 0.139570677926155);
  (-0.570972172608539, 0.166269205816994);
  (-0.394151347077564, 0.186161000015562);
  (-0.201194093997435, 0.198431485327112);
  (0, 0.202578241925561);
  (0.201194093997435, 0.198431485327112);
  (0.394151347077563, 0.186161000015562);
  (0.570972172608538, 0.166269205816994);
  (0.72441773136017, 0.139570677926155);
  (0.848206583410426, 0.107159220467171);
  (0.937273392400705, 0.0703660474881086);
  (0.987992518020484, 0.0307532419961168) ].
(** quad_raw_gauss.hpp:184-201 *)
Definition gauss_rule_16 : table1 := [
  (-0.98940093499165, 0.0271524594117561);
  (-0.944575023073232, 0.0622535239386456);
  (-0.865631202387832, 0.0951585116824928);
  (-0.755404408355003, 0.124628971255534);
  (-0.617876244402644, 0.149595988816577);
  (-0.458016777657227, 0.169156519395002);
  (-0.281603550779259, 0.182603415044923);
  (-0.0950125098376372, 0.189450610455068);
  (0.0950125098376373, 0.189450610455068);
  (0.281603550779259, 0.182603415044923);
  (0.458016777657227, 0.169156519395003);
  (0.617876244402644, 0.149595988816576);
  (0.755404408355004, 0.124628971255536);
  (0.865631202387832, 0.0951585116824934);
  (0.944575023073233, 0.0622535239386473);
  (0.98940093499165, 0.0271524594117542) ].
(** quad_raw_gauss.hpp:203-221 *)
Definition gauss_rule_17 : table1 := [
  (-0.990575475314417, 0.0241483028685482);
  (-0.950675521768768, 0.0554595293739856);
  (-0.880239153726986, 0.0850361483171798);
  (-0.781514003896801, 0.111883847193404);
  (-0.657671159216691, 0.135136368468526);
  (-0.512690537086477, 0.15404576107681);
  (-0.351231763453876, 0.16800410215645);
  (-0.178484181495848, 0.176562705366993);
  (0, 0.179446470356207);
  (0.178484181495848, 0.176562705366992);
  (0.351231763453876, 0.16800410215645);
  (0.512690537086476, 0.154045761076811);
  (0.65767115921669, 0.135136368468525);
  (0.781514003896801, 0.111883847193405);
  (0.880239153726984, 0.085036148317177);
  (0.950675521768767, 0.0554595293739875);
  (0.990575475314416, 0.0241483028685473) ].
(** quad_raw_gauss.hpp:223-242 *)
Definition gauss_rule_18 : table1 := [
  (-0.991565168420931, 0.021616013526483);
  (-0.955823949571398, 0.0497145488949712);
  (-0.892602466497556, 0.0764257302548879);
  (-0.803704958972523, 0.100942044106287);
  (-0.691687043060353, 0.122555206711478);
  (-0.559770831073947, 0.140642914670651);
  (-0.411751161462843, 0.154684675126265);
  (-0.251886225691506, 0.164276483745832);
  (-0.0847750130417353, 0.169142382963144);
  (0.0847750130417352, 0.169142382963143);
  (0.251886225691506, 0.164276483745833);
  (0.411751161462843, 0.154684675126266);
  (0.559770831073947, 0.14064291467065);
  (0.691687043060353, 0.122555206711478);
  (0.803704958972522, 0.100942044106286);
  (0.892602466497556, 0.0764257302548886);
  (0.955823949571398, 0.049714548894969);
  (0.991565168420932, 0.0216160135264855) ].
(** quad_raw_gauss.hpp:244-264 *)
Definition gauss_rule_19 : table1 := [
  (-0.992406843843583, 0.0194617882297263);
  (-0.96020815213483, 0.0448142267656976);
  (-0.903155903614819, 0.0690445427376437);
  (-0.822714656537143, 0.0914900216224497);
  (-0.72096617733523, 0.111566645547334);
  (-0.60054530466168, 0.128753962539336);
  (-0.464570741375961, 0.142606702173606);
  (-0.31656409996363, 0.15276604206586);
  (-0.160358645640225, 0.158968843393954);
  (0, 0.161054449848783);
  (0.160358645640225, 0.158968843393954);
  (0.31656409996363, 0.15276604206586);
  (0.46457074137596, 0.142606702173606);
  (0.600545304661681, 0.128753962539336);
  (0.720966177335229, 0.111566645547334);
  (0.822714656537143, 0.0914900216224515);
  (0.903155903614818, 0.0690445427376399);
  (0.960208152134831, 0.0448142267656984);
  (0.992406843843585, 0.0194617882297286) ].
(** quad_raw_gauss.hpp:266-287 *)
Definition gauss_rule_20 : table1 := [
  (-0.993128599185095, 0.0176140071391534);
  (-0.963971927277914, 0.0406014298003863);
  (-0.912234428251325, 0.0626720483341077);
  (-0.839116971822219, 0.0832767415767044);
  (-0.746331906460151, 0.101930119817241);
  (-0.636053680726515, 0.118194531961519);
  (-0.510867001950827, 0.131688638449177);
  (-0.37370608871542, 0.142096109318382);
  (-0.227785851141645, 0.149172986472604);
  (-0.0765265211334973, 0.152753387130726);
  (0.0765265211334971, 0.152753387130725);
  (0.227785851141645, 0.149172986472603);
  (0.37370608871542, 0.142096109318383);
  (0.510867001950828, 0.131688638449177);
  (0.636053680726517, 0.118194531961519);
  (0.746331906460152, 0.10193011981724);
  (0.839116971822218, 0.0832767415767037);
  (0.912234428251327, 0.0626720483341074);
  (0.963971927277915, 0.0406014298003887);
  (0.993128599185096, 0.017614007139152) ].

(** quad_raw_gauss_lobatto.hpp:28-30 *)
Definition lobatto_rule_1 : table1 := [
  (1.0000000000000000, 2.0000000000000000) ].
(** quad_raw_gauss_lobatto.hpp:32-35 *)
Definition lobatto_rule_2 : table1 := [
  (-1.0000000000000000, 1.0000000000000000);
  (1.0000000000000000, 1.0000000000000000) ].
(** quad_raw_gauss_lobatto.hpp:37-41 *)
Definition lobatto_rule_3 : table1 := [
  (-1.0000000000000000, 0.3333333333333333);
  (0.0000000000000000, 1.3333333333333333);
  (1.0000000000000000, 0.3333333333333333) ].
(** quad_raw_gauss_lobatto.hpp:43-48 *)
Definition lobatto_rule_4 : table1 := [
  (-1.0000000000000000, 0.1666666666666667);
  (-0.4472135954999579, 0.8333333333333334);
  (0.4472135954999579, 0.8333333333333334);
  (1.0000000000000000, 0.1666666666666667) ].
(** quad_raw_gauss_lobatto.hpp:50-56 *)
Definition lobatto_rule_5 : table1 := [
  (-1.0000000000000000, 0.1000000000000000);
  (-0.6546536707079771, 0.5444444444444445);
  (0.0000000000000000, 0.7111111111111111);
  (0.6546536707079771, 0.5444444444444445);
  (1.0000000000000000, 0.1000000000000000) ].
(** quad_raw_gauss_lobatto.hpp:58-65 *)
Definition lobatto_rule_6 : table1 := [
  (-1.0000000000000000, 0.0666666666666667);
  (-0.7650553239294647, 0.3784749562978469);
  (-0.2852315164806451, 0.5548583770354865);
  (0.2852315164806451, 0.5548583770354865);
  (0.7650553239294647, 0.3784749562978469);
  (1.0000000000000000, 0.0666666666666667) ].
(** quad_raw_gauss_lobatto.hpp:67-75 *)
Definition lobatto_rule_7 : table1 := [
  (-1.0000000000000000, 0.0476190476190476);
  (-0.8302238962785669, 0.2768260473615660);
  (-0.4688487934707142, 0.4317453812098627);
  (0.0000000000000000, 0.4876190476190476);
  (0.4688487934707142, 0.4317453812098627);
  (0.8302238962785669, 0.2768260473615660);
  (1.0000000000000000, 0.0476190476190476) ].
(** quad_raw_gauss_lobatto.hpp:77-86 *)
Definition lobatto_rule_8 : table1 := [
  (-1.0000000000000000, 0.0357142857142857);
  (-0.8717401485096067, 0.2107042271435060);
  (-0.5917001814331423, 0.3411226924835041);
  (-0.2092992179024789, 0.4124587946587037);
  (0.2092992179024789, 0.4124587946587037);
  (0.5917001814331423, 0.3411226924835041);
  (0.8717401485096067, 0.2107042271435060);
  (1.0000000000000000, 0.0357142857142857) ].
(** quad_raw_gauss_lobatto.hpp:88-98 *)
Definition lobatto_rule_9 : table1 := [
  (-1.0000000000000000, 0.0277777777777778);
  (-0.8997579954114602, 0.1654953615608056);
  (-0.6771862795107377, 0.2745387125001617);
  (-0.3631174638261782, 0.3464285109730464);
  (0.0000000000000000, 0.3715192743764172);
  (0.3631174638261782, 0.3464285109730464);
  (0.6771862795107377, 0.2745387125001617);
  (0.8997579954114602, 0.1654953615608056);
  (1.0000000000000000, 0.0277777777777778) ].
(** quad_raw_gauss_lobatto.hpp:100-111 *)
Definition lobatto_rule_10 : table1 := [
  (-1.0000000000000000, 0.0222222222222222);
  (-0.9195339081664587, 0.1333059908510703);
  (-0.7387738651055050, 0.2248893420631264);
  (-0.4779249498104445, 0.2920426836796838);
  (-0.1652789576663870, 0.3275397611838974);
  (0.1652789576663870, 0.3275397611838974);
  (0.4779249498104445, 0.2920426836796838);
  (0.7387738651055050, 0.2248893420631264);
  (0.9195339081664587, 0.1333059908510703);
  (1.0000000000000000, 0.0222222222222222) ].
(** quad_raw_gauss_lobatto.hpp:113-125 *)
Definition lobatto_rule_11 : table1 := [
  (-1.0000000000000000, 0.0181818181818182);
  (-0.9340014304080592, 0.1096122732669947);
  (-0.7844834736631444, 0.1871698817803051);
  (-0.5652353269962050, 0.2480481042640282);
  (-0.2957581355869394, 0.2868791247790080);
  (0.0000000000000000, 0.3002175954556907);
  (0.2957581355869394, 0.2868791247790080);
  (0.5652353269962050, 0.2480481042640282);
  (0.7844834736631444, 0.1871698817803051);
  (0.9340014304080592, 0.1096122732669947);
  (1.0000000000000000, 0.0181818181818182) ].
(** quad_raw_gauss_lobatto.hpp:127-140 *)
Definition lobatto_rule_12 : table1 := [
  (-1.0000000000000000, 0.0151515151515152);
  (-0.9448992722228823, 0.0916845174131962);
  (-0.8192793216440066, 0.1579747055643702);
  (-0.6328761530318607, 0.2125084177610210);
  (-0.3995309409653489, 0.2512756031992011);
  (-0.1365529328549276, 0.2714052409106962);
  (0.1365529328549276, 0.2714052409106962);
  (0.3995309409653489, 0.2512756031992011);
  (0.6328761530318607, 0.2125084177610210);
  (0.8192793216440066, 0.1579747055643702);
  (0.9448992722228823, 0.0916845174131962);
  (1.0000000000000000, 0.0151515151515152) ].
(** quad_raw_gauss_lobatto.hpp:142-156 *)
Definition lobatto_rule_13 : table1 := [
  (-1.0000000000000000, 0.0128205128205128);
  (-0.9533098466421639, 0.0778016867468189);
  (-0.8463475646518723, 0.1349819266896086);
  (-0.6861884690817575, 0.1836468652035502);
  (-0.4829098210913362, 0.2207677935661102);
  (-0.2492869301062400, 0.2440157903066764);
  (0.0000000000000000, 0.2519308493334467);
  (0.2492869301062400, 0.2440157903066764);
  (0.4829098210913362, 0.2207677935661102);
  (0.6861884690817575, 0.1836468652035502);
  (0.8463475646518723, 0.1349819266896086);
  (0.9533098466421639, 0.0778016867468189);
  (1.0000000000000000, 0.0128205128205128) ].
(** quad_raw_gauss_lobatto.hpp:158-173 *)
Definition lobatto_rule_14 : table1 := [
  (-1.0000000000000000, 0.0109890109890110);
  (-0.9599350452672609, 0.0668372844976813);
  (-0.8678010538303472, 0.1165866558987118);
  (-0.7288685990913262, 0.1600218517629521);
  (-0.5506394029286471, 0.1948261493734161);
  (-0.3427240133427129, 0.2191262530097708);
  (-0.1163318688837039, 0.2316127944684570);
  (0.1163318688837039, 0.2316127944684570);
  (0.3427240133427129, 0.2191262530097708);
  (0.5506394029286471, 0.1948261493734161);
  (0.7288685990913262, 0.1600218517629521);
  (0.8678010538303472, 0.1165866558987118);
  (0.9599350452672609, 0.0668372844976813);
  (1.0000000000000000, 0.0109890109890110) ].
(** quad_raw_gauss_lobatto.hpp:175-191 *)
Definition lobatto_rule_15 : table1 := [
  (-1.0000000000000000, 0.0095238095238095);
  (-0.9652459265038386, 0.0580298930286013);
  (-0.8850820442229763, 0.1016600703257181);
  (-0.7635196899518152, 0.1405116998024280);
  (-0.6062532054698457, 0.1727896472536009);
  (-0.4206380547136725, 0.1969872359646133);
  (-0.2153539553637942, 0.2119735859268209);
  (0.0000000000000000, 0.2170481163488157);
  (0.2153539553637942, 0.2119735859268209);
  (0.4206380547136725, 0.1969872359646133);
  (0.6062532054698457, 0.1727896472536009);
  (0.7635196899518152, 0.1405116998024280);
  (0.8850820442229763, 0.1016600703257181);
  (0.9652459265038386, 0.0580298930286013);
  (1.0000000000000000, 0.0095238095238095) ].
(** quad_raw_gauss_lobatto.hpp:193-210 *)
Definition lobatto_rule_16 : table1 := [
  (-1.0000000000000000, 0.0083333333333333);
  (-0.9695680462702180, 0.0508503610059200);
  (-0.8992005330934721, 0.0893936973259307);
  (-0.7920082918618151, 0.1242553821325141);
  (-0.6523887028824931, 0.1540269808071644);
  (-0.4860594218871376, 0.1774919133917042);
  (-0.2998304689007632, 0.1936900238252036);
  (-0.1013262735219495, 0.2019583081782300);
  (0.1013262735219494, 0.2019583081782299);
  (0.2998304689007632, 0.1936900238252036);
  (0.4860594218871376, 0.1774919133917042);
  (0.6523887028824931, 0.1540269808071644);
  (0.7920082918618151, 0.1242553821325141);
  (0.8992005330934721, 0.0893936973259307);
  (0.9695680462702180, 0.0508503610059200);
  (1.0000000000000000, 0.0083333333333333) ].
(** quad_raw_gauss_lobatto.hpp:212-230 *)
Definition lobatto_rule_17 : table1 := [
  (-1.0000000000000000, 0.0073529411764706);
  (-0.9731321766314184, 0.0449219405432543);
  (-0.9108799959155736, 0.0791982705036871);
  (-0.8156962512217703, 0.1105929090070282);
  (-0.6910289806276847, 0.1379877462019267);
  (-0.5413853993301015, 0.1603946619976216);
  (-0.3721744335654770, 0.1770042535156578);
  (-0.1895119735183174, 0.1872163396776193);
  (0.0000000000000000, 0.1906618747534694);
  (0.1895119735183174, 0.1872163396776193);
  (0.3721744335654770, 0.1770042535156578);
  (0.5413853993301015, 0.1603946619976216);
  (0.6910289806276847, 0.1379877462019267);
  (0.8156962512217703, 0.1105929090070282);
  (0.9108799959155736, 0.0791982705036871);
  (0.9731321766314184, 0.0449219405432543);
  (1.0000000000000000, 0.0073529411764706) ].
(** quad_raw_gauss_lobatto.hpp:232-251 *)
Definition lobatto_rule_18 : table1 := [
  (-1.0000000000000000, 0.0065359477124183);
  (-0.9761055574121985, 0.0399706288109139);
  (-0.9206491853475339, 0.0706371668856337);
  (-0.8355935352180902, 0.0990162717175028);
  (-0.7236793292832426, 0.1242105331329672);
  (-0.5885048343186617, 0.1454119615738023);
  (-0.4344150369121240, 0.1619395172376024);
  (-0.2663626528782810, 0.1732621094894563);
  (-0.0897490934846521, 0.1790158634397031);
  (0.0897490934846521, 0.1790158634397031);
  (0.2663626528782810, 0.1732621094894563);
  (0.4344150369121240, 0.1619395172376024);
  (0.5885048343186617, 0.1454119615738023);
  (0.7236793292832426, 0.1242105331329672);
  (0.8355935352180902, 0.0990162717175028);
  (0.9206491853475339, 0.0706371668856337);
  (0.9761055574121985, 0.0399706288109139);
  (1.0000000000000000, 0.0065359477124183) ].
(** quad_raw_gauss_lobatto.hpp:253-273 *)
Definition lobatto_rule_19 : table1 := [
  (-1.0000000000000000, 0.0058479532163743);
  (-0.9786117662220801, 0.0357933651861766);
  (-0.9289015281525862, 0.0633818917626298);
  (-0.8524605777966461, 0.0891317570992071);
  (-0.7514942025526130, 0.1123153414773051);
  (-0.6289081372652205, 0.1322672804487508);
  (-0.4882292856807135, 0.1484139425959388);
  (-0.3335048478244986, 0.1602909240440613);
  (-0.1691860234092816, 0.1675565845271428);
  (0.0000000000000000, 0.1700019192848272);
  (0.1691860234092816, 0.1675565845271428);
  (0.3335048478244986, 0.1602909240440613);
  (0.4882292856807135, 0.1484139425959388);
  (0.6289081372652205, 0.1322672804487508);
  (0.7514942025526130, 0.1123153414773051);
  (0.8524605777966461, 0.0891317570992071);
  (0.9289015281525862, 0.0633818917626298);
  (0.9786117662220801, 0.0357933651861766);
  (1.0000000000000000, 0.0058479532163743) ].
(** quad_raw_gauss_lobatto.hpp:275-296 *)
Definition lobatto_rule_20 : table1 := [
  (-1.0000000000000000, 0.0052631578947368);
  (-0.9807437048939142, 0.0322371231884890);
  (-0.9359344988126654, 0.0571818021275669);
  (-0.8668779780899502, 0.0806317639961196);
  (-0.7753682609520559, 0.1019914996994507);
  (-0.6637764022903113, 0.1207092276286747);
  (-0.5349928640318863, 0.1363004823587242);
  (-0.3923531837139093, 0.1483615540709168);
  (-0.2395517059229865, 0.1565801026474754);
  (-0.0805459372388218, 0.1607432863878458);
  (0.0805459372388218, 0.1607432863878458);
  (0.2395517059229865, 0.1565801026474754);
  (0.3923531837139093, 0.1483615540709168);
  (0.5349928640318863, 0.1363004823587242);
  (0.6637764022903113, 0.1207092276286747);
  (0.7753682609520559, 0.1019914996994507);
  (0.8668779780899502, 0.0806317639961196);
  (0.9359344988126654, 0.0571818021275669);
  (0.9807437048939142, 0.0322371231884890);
  (1.0000000000000000, 0.0052631578947368) ].
(** quad_raw_gauss.hpp:294-316, with the terminating { 0, NULL } *)
Definition gauss_rules : list table1 := [
  gauss_rule_1; gauss_rule_2; gauss_rule_3; gauss_rule_4; gauss_rule_5; gauss_rule_6; gauss_rule_7; gauss_rule_8; gauss_rule_9; gauss_rule_10; gauss_rule_11; gauss_rule_12; gauss_rule_13; gauss_rule_14; gauss_rule_15; gauss_rule_16; gauss_rule_17; gauss_rule_18; gauss_rule_19; gauss_rule_20; [] ].
(** quad_raw_gauss_lobatto.hpp:304-325 (no terminator) *)
Definition lobatto_rules : list table1 := [
  lobatto_rule_1; lobatto_rule_2; lobatto_rule_3; lobatto_rule_4; lobatto_rule_5; lobatto_rule_6; lobatto_rule_7; lobatto_rule_8; lobatto_rule_9; lobatto_rule_10; lobatto_rule_11; lobatto_rule_12; lobatto_rule_13; lobatto_rule_14; lobatto_rule_15; lobatto_rule_16; lobatto_rule_17; lobatto_rule_18; lobatto_rule_19; lobatto_rule_20 ].

Close Scope Q_scope.
Open Scope R_scope.

(** quadrature_point.hpp: a quadrature point is a pair point, weight *)

(** quad_raw_gauss.hpp:324-342 *)
Definition gauss_legendre (degree : nat) (a b : R) : outcome (list (R * R)) :=
  let num_rules := (length gauss_rules - 1)%nat in
  let rule_num := Nat.div degree 2 in
  if Nat.leb num_rules rule_num then Throw InvalidArgument
  else Ok (map (fun qp => (1 / 2 * (a + b) + 1 / 2 * (b - a) * Q2R (fst qp), 1 / 2 * (b - a) * Q2R (snd qp)))
               (nth rule_num gauss_rules [])).

(** mesh/point.hpp: operations on points of dimension DIM *)
Definition padd (p q : pt) : pt := fun i => p i + q i.
Definition psubt (p q : pt) : pt := fun i => p i - q i.
Definition pscale (k : R) (p : pt) : pt := fun i => k * p i.
Fixpoint dot (D : nat) (p q : pt) : R :=
  match D with O => 0 | S d => dot d p q + p d * q d end.
Definition norm (D : nat) (p : pt) : R := sqrt (dot D p p).
(** point.hpp: distance(p1, p2) = (p2-p1).to_vector().norm() *)
Definition distance (D : nat) (p q : pt) : R := norm D (psubt q p).

(** quad_raw_gauss.hpp:346-366 *)
Definition gauss_legendre_seg (D degree : nat) (a b : pt) : outcome (list (pt * R)) :=
  let num_rules := (length gauss_rules - 1)%nat in
  let rule_num := Nat.div degree 2 in
  if Nat.leb num_rules rule_num then Throw InvalidArgument
  else Ok (map (fun qp => (padd (pscale (1 / 2) (padd a b)) (pscale (Q2R (fst qp)) (pscale (1 / 2) (psubt b a))),
                           1 / 2 * distance D a b * Q2R (snd qp)))
               (nth rule_num gauss_rules [])).

(** quad_raw_gauss_lobatto.hpp:331-351 *)
Definition lobatto_rule_num (degree : nat) : nat :=
  let degree := if Nat.eqb (Nat.modulo degree 2) 0 then (degree + 1)%nat else degree in
  (Nat.div (degree + 3) 2 - 1)%nat.
Definition gauss_lobatto (degree : nat) (a b : R) : outcome (list (R * R)) :=
  let num_rules := length lobatto_rules in
  let rule_num := lobatto_rule_num degree in
  if Nat.leb num_rules rule_num then Throw InvalidArgument
  else Ok (map (fun qp => (1 / 2 * (a + b) + 1 / 2 * (b - a) * Q2R (fst qp), 1 / 2 * (b - a) * Q2R (snd qp)))
               (nth rule_num lobatto_rules [])).
(** quad_raw_gauss_lobatto.hpp:355-376 *)
Definition gauss_lobatto_seg (D degree : nat) (a b : pt) : outcome (list (pt * R)) :=
  let num_rules := length lobatto_rules in
  let rule_num := lobatto_rule_num degree in
  if Nat.leb num_rules rule_num then Throw InvalidArgument
  else Ok (map (fun qp => (padd (pscale (1 / 2) (padd a b)) (pscale (Q2R (fst qp)) (pscale (1 / 2) (psubt b a))),
                           1 / 2 * distance D a b * Q2R (snd qp)))
               (nth rule_num lobatto_rules [])).

(** point<T,2>(x, y), point<T,3>(x, y, z) *)
Definition pt2 (x y : R) : pt := fun i => match i with O => x | 1%nat => y | _ => 0 end.
Definition pt3 (x y z : R) : pt := fun i => match i with O => x | 1%nat => y | 2%nat => z | _ => 0 end.

(** quad_raw_gauss.hpp:387-402 (and 462-475): the points of the square, the
    second coordinate varying slowest *)
Definition square_points (t : table1) : list (pt * R) :=
  flat_map (fun qpy => map (fun qpx => (pt2 (Q2R (fst qpx)) (Q2R (fst qpy)), Q2R (snd qpx) * Q2R (snd qpy))) t) t.

(** quad_raw_gauss.hpp:405-422: lambdas X, Y, J *)
Definition quad_X (i : nat) (p0 p1 p2 p3 : pt) (xi eta : R) : R :=
  1 / 4 * p0 i * (1 - xi) * (1 - eta) + 1 / 4 * p1 i * (1 + xi) * (1 - eta) +
  1 / 4 * p2 i * (1 + xi) * (1 + eta) + 1 / 4 * p3 i * (1 - xi) * (1 + eta).
Definition quad_J (p0 p1 p2 p3 : pt) (xi eta : R) : R :=
  let j11 := 1 / 4 * ((p1 0%nat - p0 0%nat) * (1 - eta) + (p2 0%nat - p3 0%nat) * (1 + eta)) in
  let j12 := 1 / 4 * ((p1 1%nat - p0 1%nat) * (1 - eta) + (p2 1%nat - p3 1%nat) * (1 + eta)) in
  let j21 := 1 / 4 * ((p3 0%nat - p0 0%nat) * (1 - xi) + (p2 0%nat - p1 0%nat) * (1 + xi)) in
  let j22 := 1 / 4 * ((p3 1%nat - p0 1%nat) * (1 - xi) + (p2 1%nat - p1 1%nat) * (1 + xi)) in
  Rabs (j11 * j22 - j12 * j21).

(** quad_raw_gauss.hpp:370-436 *)
Definition tensorized_gauss_legendre (degree : nat) (p0 p1 p2 p3 : pt) : outcome (list (pt * R)) :=
  let num_rules := (length gauss_rules - 1)%nat in
  let rule_num := Nat.div degree 2 in
  if Nat.leb num_rules rule_num then Throw InvalidArgument
  else Ok (map (fun qp => let xi := fst qp 0%nat in let eta := fst qp 1%nat in
                          (pt2 (quad_X 0 p0 p1 p2 p3 xi eta) (quad_X 1 p0 p1 p2 p3 xi eta),
                           snd qp * quad_J p0 p1 p2 p3 xi eta))
               (square_points (nth rule_num gauss_rules []))).

(** quad_raw_gauss.hpp:447-493: quadrangle in space *)
Definition tensorized_gauss_legendre_face (degree : nat) (p0 p1 p2 p3 : pt) : outcome (list (pt * R)) :=
  let num_rules := (length gauss_rules - 1)%nat in
  let rule_num := Nat.div degree 2 in
  if Nat.leb num_rules rule_num then Throw InvalidArgument
  else
    let v0 := pscale (/ 2) (psubt p1 p0) in
    let v1 := pscale (/ 2) (psubt p3 p0) in
    let meas4 := norm 3 v0 * norm 3 v1 in
    let bar := pscale (/ 4) (padd (padd (padd p0 p1) p2) p3) in
    Ok (map (fun qp => (padd (padd (pscale (fst qp 0%nat) v0) (pscale (fst qp 1%nat) v1)) bar, snd qp * meas4))
            (square_points (nth rule_num gauss_rules []))).

(** quad_raw_gauss.hpp:519-550: lambdas P, Q, R; [p] gives the eight vertices *)
Definition hex_X (i : nat) (p : nat -> pt) (xi eta zeta : R) : R :=
  1 / 8 * (p 0%nat i * (1 - xi) * (1 - eta) * (1 - zeta) + p 1%nat i * (1 + xi) * (1 - eta) * (1 - zeta) +
           p 2%nat i * (1 + xi) * (1 + eta) * (1 - zeta) + p 3%nat i * (1 - xi) * (1 + eta) * (1 - zeta) +
           p 4%nat i * (1 - xi) * (1 - eta) * (1 + zeta) + p 5%nat i * (1 + xi) * (1 - eta) * (1 + zeta) +
           p 6%nat i * (1 + xi) * (1 + eta) * (1 + zeta) + p 7%nat i * (1 - xi) * (1 + eta) * (1 + zeta)).
(** quad_raw_gauss.hpp:552-597: row [r] of the Jacobian, column [i] *)
Definition hex_Jac (p : nat -> pt) (xi eta zeta : R) (r i : nat) : R :=
  1 / 8 * match r with
  | O => - p 0%nat i * (1 - eta) * (1 - zeta) + p 1%nat i * (1 - eta) * (1 - zeta) +
         p 2%nat i * (1 + eta) * (1 - zeta) - p 3%nat i * (1 + eta) * (1 - zeta) -
         p 4%nat i * (1 - eta) * (1 + zeta) + p 5%nat i * (1 - eta) * (1 + zeta) +
         p 6%nat i * (1 + eta) * (1 + zeta) - p 7%nat i * (1 + eta) * (1 + zeta)
  | 1%nat => - p 0%nat i * (1 - xi) * (1 - zeta) - p 1%nat i * (1 + xi) * (1 - zeta) +
         p 2%nat i * (1 + xi) * (1 - zeta) + p 3%nat i * (1 - xi) * (1 - zeta) -
         p 4%nat i * (1 - xi) * (1 + zeta) - p 5%nat i * (1 + xi) * (1 + zeta) +
         p 6%nat i * (1 + xi) * (1 + zeta) + p 7%nat i * (1 - xi) * (1 + zeta)
  | _ => - p 0%nat i * (1 - xi) * (1 - eta) - p 1%nat i * (1 + xi) * (1 - eta) -
         p 2%nat i * (1 + xi) * (1 + eta) - p 3%nat i * (1 - xi) * (1 + eta) +
         p 4%nat i * (1 - xi) * (1 - eta) + p 5%nat i * (1 + xi) * (1 - eta) +
         p 6%nat i * (1 + xi) * (1 + eta) + p 7%nat i * (1 - xi) * (1 + eta)
  end.
Definition det33 (m : nat -> nat -> R) : R :=
  m 0%nat 0%nat * (m 1%nat 1%nat * m 2%nat 2%nat - m 1%nat 2%nat * m 2%nat 1%nat) -
  m 0%nat 1%nat * (m 1%nat 0%nat * m 2%nat 2%nat - m 1%nat 2%nat * m 2%nat 0%nat) +
  m 0%nat 2%nat * (m 1%nat 0%nat * m 2%nat 1%nat - m 1%nat 1%nat * m 2%nat 0%nat).
(** quad_raw_gauss.hpp:497-628: hexahedron *)
Definition tensorized_gauss_legendre_hex (degree : nat) (p : nat -> pt) : outcome (list (pt * R)) :=
  let num_rules := (length gauss_rules - 1)%nat in
  let rule_num := Nat.div degree 2 in
  if Nat.leb num_rules rule_num then Throw InvalidArgument
  else
    let qps := nth rule_num gauss_rules [] in
    Ok (flat_map (fun qx => flat_map (fun qy => map (fun qz =>
          let xi := Q2R (fst qx) in let eta := Q2R (fst qy) in let zeta := Q2R (fst qz) in
          (pt3 (hex_X 0 p xi eta zeta) (hex_X 1 p xi eta zeta) (hex_X 2 p xi eta zeta),
           Q2R (snd qx) * Q2R (snd qy) * Q2R (snd qz) * Rabs (det33 (hex_Jac p xi eta zeta)))) qps) qps) qps).

(** quad_bones.hpp:126-205: the older gauss_legendre on [-1,1], closed forms up
    to five nodes.  [golub_welsch] (quad_bones.hpp:65-105, an eigenvalue
    computation) is a parameter. *)
Definition bones_gauss_legendre (golub_welsch : nat -> list (R * R)) (degree : nat) : list (R * R) :=
  let comp_degree := if Nat.eqb (Nat.modulo degree 2) 0 then (degree + 1)%nat else degree in
  match Nat.div (comp_degree + 1) 2 with
  | 1%nat => [(0, 2)]
  | 2%nat => let qp := 1 / sqrt 3 in [(- qp, 1); (qp, 1)]
  | 3%nat => let qp := sqrt (3 / 5) in [(- qp, 5 / 9); (qp, 5 / 9); (0, 8 / 9)]
  | 4%nat =>
      let a1 := 15 in let a2 := 2 * sqrt 30 in
      let qp := sqrt ((a1 - a2) / 35) in let qw := (18 + sqrt 30) / 36 in
      let qp' := sqrt ((a1 + a2) / 35) in let qw' := (18 - sqrt 30) / 36 in
      [(- qp, qw); (qp, qw); (- qp', qw'); (qp', qw')]
  | 5%nat =>
      let a1 := 5 in let a2 := 2 * sqrt (10 / 7) in
      let qp := sqrt (a1 - a2) / 3 in let qw := (322 + 13 * sqrt 70) / 900 in
      let qp' := sqrt (a1 + a2) / 3 in let qw' := (322 - 13 * sqrt 70) / 900 in
      [(0, 128 / 225); (- qp, qw); (qp, qw); (- qp', qw'); (qp', qw')]
  | _ => golub_welsch degree
  end.
(** quad_phys_generic.hpp:207-232: integrate on a 1D cell with end points a, b *)
Definition integrate_1D (golub_welsch : nat -> list (R * R)) (degree : nat) (a b : R) : list (R * R) :=
  let meas := Rabs (b - a) in
  map (fun qp => (1 / 2 * (1 - fst qp) * a + 1 / 2 * (1 + fst qp) * b, snd qp * meas * (1 / 2)))
      (bones_gauss_legendre golub_welsch degree).
