-Q theories Verif
theories/Arbq_Model.v
theories/Arbq_Proofs.v
theories/Arbq_Properties.v
theories/Arbq_Tables.v
theories/Asm2_Proofs.v
theories/Asm2_Properties.v
theories/Asm3_Proofs.v
theories/Asm_Model.v
theories/Asm_Proofs.v
theories/Asm_Properties.v
theories/Asm_Spec.v
theories/BC_Model.v
theories/BC_Proofs.v
theories/BC_Properties.v
theories/BC_Spec.v
theories/Bases2_Proofs.v
theories/Bases3_Proofs.v
theories/Bases_Model.v
theories/Bases_Proofs.v
theories/Bases_Properties.v
theories/Bases_Spec.v
theories/CFEM_Model.v
theories/CFEM_Properties.v
theories/CFEM_Spec.v
theories/CG_Model.v
theories/CG_Proofs.v
theories/CG_Properties.v
theories/CG_Spec.v
theories/Cart_Model.v
theories/Cart_Proofs.v
theories/Cart_Properties.v
theories/Cart_Spec.v
theories/Cell_Model.v
theories/Cell_Proofs.v
theories/Cell_Properties.v
theories/Cell_Spec.v
theories/Common.v
theories/Cond_Model.v
theories/Cond_Proofs.v
theories/Cond_Properties.v
theories/Cond_Spec.v
theories/Conn2_Proofs.v
theories/Conn3_Proofs.v
theories/Conn_Model.v
theories/Conn_Proofs.v
theories/Conn_Properties.v
theories/Conn_Spec.v
theories/Curl2_Proofs.v
theories/Curl3_Proofs.v
theories/Curl4_Proofs.v
theories/Curl5_Proofs.v
theories/Curl6_Proofs.v
theories/CurlD_Proofs.v
theories/CurlInst_Proofs.v
theories/CurlP_Proofs.v
theories/CurlS_Model.v
theories/CurlS_Proofs.v
theories/CurlS_Properties.v
theories/CurlS_Setting.v
theories/Curl_Model.v
theories/Curl_Proofs.v
theories/Curl_Properties.v
theories/Curl_Setting.v
theories/Curl_Spec.v
theories/DGA2_Proofs.v
theories/DGA3_Proofs.v
theories/DGA_Model.v
theories/DGA_Proofs.v
theories/DGA_Properties.v
theories/DGA_Spec.v
theories/Degree_Model.v
theories/Degree_Proofs.v
theories/Degree_Properties.v
theories/Degree_Spec.v
theories/Elem_Model.v
theories/Elem_Proofs.v
theories/Elem_Properties.v
theories/Elem_Spec.v
theories/Fill_Proofs.v
theories/Fill_Properties.v
theories/GM2_Proofs.v
theories/GM3_Proofs.v
theories/GM4_Proofs.v
theories/GM_Model.v
theories/GM_Proofs.v
theories/GM_Properties.v
theories/Geo2_Proofs.v
theories/Geo3_Proofs.v
theories/Geo4_Proofs.v
theories/Geo_Model.v
theories/Geo_Proofs.v
theories/Geo_Properties.v
theories/Geo_Spec.v
theories/HHO10_Proofs.v
theories/HHO2_Proofs.v
theories/HHO3_Proofs.v
theories/HHO4_Proofs.v
theories/HHO5_Proofs.v
theories/HHO6_Proofs.v
theories/HHO7_Proofs.v
theories/HHO8_Proofs.v
theories/HHO9_Proofs.v
theories/HHOInst2_Proofs.v
theories/HHOInst_Proofs.v
theories/HHOInst_Properties.v
theories/HHO_Model.v
theories/HHO_Proofs.v
theories/HHO_Properties.v
theories/HHO_Setting.v
theories/HHO_Spec.v
theories/Harm2_Proofs.v
theories/Harm3_Proofs.v
theories/Harm_Model.v
theories/Harm_Proofs.v
theories/Harm_Properties.v
theories/Harm_Spec.v
theories/Hencky_Model.v
theories/Hencky_Proofs.v
theories/Hencky_Properties.v
theories/Hencky_Spec.v
theories/Hex2_Proofs.v
theories/Hex3_Proofs.v
theories/Hex4_Proofs.v
theories/Hex5_Proofs.v
theories/Hex_Model.v
theories/Hex_Proofs.v
theories/Hex_Properties.v
theories/Hex_Spec.v
theories/Hier2_Proofs.v
theories/Hier_Model.v
theories/Hier_Proofs.v
theories/Hier_Properties.v
theories/Hier_Spec.v
theories/Law2_Proofs.v
theories/Law3_Proofs.v
theories/Law4_Proofs.v
theories/Law_Model.v
theories/Law_Proofs.v
theories/Law_Properties.v
theories/Law_Spec.v
theories/LinAlg.v
theories/Load2_Proofs.v
theories/Load_Model.v
theories/Load_Proofs.v
theories/Load_Properties.v
theories/Load_Spec.v
theories/Log_Model.v
theories/Log_Proofs.v
theories/Log_Properties.v
theories/Log_Spec.v
theories/Logt_Proofs.v
theories/Logt_Properties.v
theories/Mesh2_Proofs.v
theories/Mesh_Model.v
theories/Mesh_Proofs.v
theories/Mesh_Properties.v
theories/Mesh_Spec.v
theories/Mesher2_Proofs.v
theories/Mesher3_Proofs.v
theories/Mesher4_Proofs.v
theories/Mesher5_Proofs.v
theories/Mesher6_Proofs.v
theories/Mesher_Model.v
theories/Mesher_Proofs.v
theories/Mesher_Properties.v
theories/Mesher_Spec.v
theories/Newton_Model.v
theories/Newton_Proofs.v
theories/Newton_Properties.v
theories/Newton_Spec.v
theories/Nit_Model.v
theories/Nit_Proofs.v
theories/Nit_Properties.v
theories/Nit_Spec.v
theories/PGrad_Model.v
theories/PGrad_Proofs.v
theories/PGrad_Properties.v
theories/Plane_Model.v
theories/Plane_Proofs.v
theories/Plane_Properties.v
theories/Plane_Spec.v
theories/Poly_Proofs.v
theories/Poly_Spec.v
theories/Polyh_Model.v
theories/Polyh_Proofs.v
theories/Polyh_Properties.v
theories/Polyh_Spec.v
theories/Post_Model.v
theories/Post_Proofs.v
theories/Post_Properties.v
theories/Post_Spec.v
theories/QChk_Proofs.v
theories/Quad2_Proofs.v
theories/Quad_Model.v
theories/Quad_Proofs.v
theories/Quad_Properties.v
theories/Quad_Spec.v
theories/Rational_Model.v
theories/Rational_Proofs.v
theories/Rational_Properties.v
theories/Rational_Spec.v
theories/RefTet_Proofs.v
theories/Refine_Proofs.v
theories/Relax_Model.v
theories/Relax_Proofs.v
theories/Relax_Properties.v
theories/Relax_Spec.v
theories/SAsm_Model.v
theories/SAsm_Proofs.v
theories/SAsm_Properties.v
theories/SAsm_Spec.v
theories/SLapl2_Proofs.v
theories/SLapl_Model.v
theories/SLapl_Proofs.v
theories/SLapl_Properties.v
theories/Scat_Proofs.v
theories/Sfl2_Proofs.v
theories/Sfl3_Proofs.v
theories/Sfl_Model.v
theories/Sfl_Proofs.v
theories/Sfl_Properties.v
theories/Sfl_Setting.v
theories/Shape_Proofs.v
theories/Shape_Properties.v
theories/Shape_Spec.v
theories/Single_Model.v
theories/Single_Properties.v
theories/St_Proofs.v
theories/St_Properties.v
theories/Stab2_Proofs.v
theories/Stab3_Proofs.v
theories/Stab4_Proofs.v
theories/Stab5_Proofs.v
theories/Stab_Model.v
theories/Stab_Proofs.v
theories/Stab_Properties.v
theories/Stab_Spec.v
theories/SymL2_Proofs.v
theories/SymL3_Proofs.v
theories/SymL4_Proofs.v
theories/SymL5_Proofs.v
theories/SymL6_Proofs.v
theories/SymL7_Proofs.v
theories/SymL_Model.v
theories/SymL_Proofs.v
theories/SymL_Properties.v
theories/SymL_Spec.v
theories/Tensor_Model.v
theories/Tensor_Proofs.v
theories/Tensor_Properties.v
theories/Tensor_Spec.v
theories/Tet_Properties.v
theories/Time_Model.v
theories/Time_Proofs.v
theories/Time_Properties.v
theories/Time_Spec.v
theories/Trans_Model.v
theories/Trans_Properties.v
theories/Trans_Spec.v
theories/Tri2_Proofs.v
theories/Tri_Model.v
theories/Tri_Proofs.v
theories/Tri_Properties.v
theories/Tri_Tables.v
theories/Uniform_Model.v
theories/Uniform_Proofs.v
theories/Uniform_Properties.v
theories/Uniform_Spec.v
theories/Util_Model.v
theories/Util_Proofs.v
theories/Util_Properties.v
theories/Util_Spec.v
theories/VAsm2_Proofs.v
theories/VAsm3_Proofs.v
theories/VAsm_Model.v
theories/VAsm_Proofs.v
theories/VAsm_Properties.v
theories/VAsm_Runs.v
theories/VAsm_Spec.v
theories/VBases2_Proofs.v
theories/VBases3_Proofs.v
theories/VBases4_Proofs.v
theories/VBases5_Proofs.v
theories/VBases_Model.v
theories/VBases_Proofs.v
theories/VBases_Properties.v
theories/VBases_Spec.v
theories/VDof_Model.v
theories/VDof_Proofs.v
theories/VDof_Properties.v
theories/VDof_Spec.v
theories/VEM2_Proofs.v
theories/VEM3_Proofs.v
theories/VEMInst_Proofs.v
theories/VEM_Model.v
theories/VEM_Proofs.v
theories/VEM_Properties.v
theories/VEM_Setting.v
theories/VEM_Spec.v
theories/VHHO2_Proofs.v
theories/VHHO3_Proofs.v
theories/VHHO4_Proofs.v
theories/VHHO5_Proofs.v
theories/VHHO6_Proofs.v
theories/VHHO_Model.v
theories/VHHO_Proofs.v
theories/VHHO_Properties.v
theories/VHHO_Setting.v
theories/VHHO_Spec.v
theories/VSch_Model.v
theories/VSch_Proofs.v
theories/VSch_Properties.v
