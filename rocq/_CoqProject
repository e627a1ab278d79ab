-Q theories Verif
theories/Base.v
theories/Arith.v
theories/M_r3.v
theories/Spec_r3.v
theories/XRvec.v
theories/P_r3.v
theories/Props_r3.v
theories/M_predicates.v
theories/Spec_sphere.v
theories/P_predicates.v
theories/P_insphere_err.v
theories/P_insphere_b64.v
theories/Props_predicates.v
theories/M_tri2.v
theories/Spec_plane.v
theories/P_tri2.v
theories/P_polygon.v
theories/P_hull.v
theories/Props_tri2.v
theories/GoMap.v
theories/M_meshing.v
theories/Spec_mesh.v
theories/P_meshing.v
theories/P_meshorder.v
theories/P_meshgeom.v
theories/Props_meshing.v
theories/M_tri3.v
theories/Spec_tri3.v
theories/P_tri3.v
theories/Props_tri3.v
theories/M_nurbs.v
theories/Spec_nurbs.v
theories/P_nurbs.v
theories/P_nurbs2.v
theories/Props_nurbs.v
theories/GoLoop.v
theories/M_shape.v
theories/Spec_shape.v
theories/P_shape.v
theories/Props_shape.v
theories/M_gltf.v
theories/P_gltf.v
theories/Props_gltf.v
theories/M_step.v
theories/Spec_step.v
theories/P_step.v
theories/P_parse.v
theories/Props_step.v
theories/Spec_halfedge.v
theories/M_triangulator.v
theories/P_delgeom.v
theories/P_halfedge.v
theories/P_ring.v
theories/P_flip.v
theories/P_leg.v
theories/P_tstate.v
theories/P_legmodel.v
theories/P_addtri.v
theories/P_ringops.v
theories/P_insstep.v
theories/P_chain.v
theories/P_delaunay.v
theories/P_insert.v
theories/P_flipterm.v
theories/Spec_delaunay.v
theories/P_hullfar.v
theories/P_seed.v
theories/P_init.v
theories/P_triang.v
theories/P_result.v
theories/Props_triangulator.v
theories/P_tile.v
theories/P_tiling.v
theories/Props_tiling.v
theories/P_hullsame.v
theories/P_validate.v
theories/Props_validate.v
theories/Props_legalize.v
theories/P_b64sc.v
theories/P_b64hash.v
theories/P_gridgeo.v
theories/P_b64err.v
theories/P_b64grid.v
theories/P_b64triang.v
theories/P_outcome64.v
theories/Props_grid.v
theories/P_b64hull.v
theories/P_hulltri.v
theories/P_b64valid.v
theories/Props_grid2.v
theories/P_b64laws.v
theories/P_seedmin.v
theories/P_b64rel.v
theories/P_b64norm.v
theories/Props_float.v
theories/P_b64nurbs.v
theories/Props_nurbs64.v
theories/Spec_bw.v
theories/P_bw.v
theories/Props_bw.v
theories/Spec_grid3.v
theories/P_b64grid3.v
theories/Props_grid3.v
theories/Spec_index.v
theories/P_index.v
theories/Props_index.v
theories/P_b64interp.v
theories/P_near64.v
theories/P_tetra64.v
theories/Spec_near.v
theories/Props_float2.v
theories/Spec_plane64.v
theories/P_plane64.v
theories/Props_plane64.v
theories/Spec_delaunay2.v
theories/P_delcomp.v
theories/Props_delcomp.v
theories/Spec_spline.v
theories/P_spline.v
theories/P_spline2.v
theories/P_spline3.v
theories/Props_spline.v
theories/Spec_smooth.v
theories/P_smooth.v
theories/Props_smooth.v
theories/Spec_delaunay3.v
theories/P_delangle.v
theories/Props_delangle.v
theories/Props_offgrid.v
theories/Spec_hull.v
theories/P_hullset.v
theories/Props_hullset.v
theories/Spec_shape2.v
theories/P_shape2.v
theories/Props_shape2.v
theories/Spec_knotins.v
theories/P_knotins.v
theories/Props_knotins.v
theories/Spec_shape64.v
theories/Spec_lexany.v
theories/Spec_walk.v
theories/Spec_acc64.v
theories/Spec_clear.v
theories/Spec_sum64.v
theories/Spec_circ64.v
theories/P_b64clamp.v
theories/P_circ64.v
theories/Props_circ64.v
theories/P_cleartri.v
theories/Spec_cleartri.v
theories/P_acc64.v
theories/P_clearhull.v
theories/P_sum64.v
theories/Props_acc64.v
theories/Props_clearhull.v
theories/Props_sum64.v
theories/P_walk.v
theories/P_edgecount.v
theories/Props_walk.v
theories/Props_edgecount.v
theories/P_lexany.v
theories/P_parseany.v
theories/Props_lexany.v
theories/P_shape64.v
theories/P_pi64.v
theories/P_seam64.v
theories/Props_shape64.v
theories/M_document.v
theories/Spec_document.v
theories/P_document.v
theories/Props_document.v
theories/Props_clamp64.v
theories/P_clearchk.v
theories/Props_cleartri.v
theories/Props_clearval.v
theories/Props_clearopt.v
theories/Spec_clear3.v
theories/P_clear3.v
theories/Props_clear3.v
theories/Spec_init3.v
theories/Props_init3.v
theories/Spec_utf8.v
theories/Props_utf8.v
theories/Spec_surface.v
theories/M_job.v
theories/P_job.v
theories/Props_job.v
theories/M_output.v
theories/Spec_output.v
theories/P_output.v
theories/Props_output.v
theories/Spec_tess.v
theories/P_tess.v
theories/Props_tess.v
theories/P_same.v
theories/Spec_similar.v
theories/P_similar.v
theories/Spec_scale64.v
theories/P_scale64.v
theories/Props_similar.v
theories/P_same3.v
theories/Props_scale3.v
theories/M_cost.v
theories/Spec_cost.v
theories/P_cost.v
theories/P_costtri.v
theories/P_costgrid.v
theories/P_costclear.v
theories/Props_cost.v
theories/M_chan.v
theories/Props_chan.v
theories/Spec_mst.v
theories/P_mst.v
theories/Props_mst.v
theories/Spec_voronoi.v
theories/P_voronoi.v
theories/Props_voronoi.v
theories/Spec_polylength.v
theories/P_polylength.v
theories/Props_polylength.v
theories/Spec_curvedist.v
theories/P_curvedist.v
theories/Props_curvedist.v
