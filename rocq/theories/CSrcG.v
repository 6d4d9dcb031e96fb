(** Texts of the generic templates, copied byte for byte from /repo (every double quote is doubled, as Coq strings require). *)
From Coq Require Import String.
Local Open Scope string_scope.
(** include/hblas/generic/hblas1/hblas_swapv_impl.hpp, all 86 lines *)
Definition csrc_swapv_impl : string := "/*
 *  This file is a part of HAXX
 *  
 *  Copyright (c) 2017 David Williams-Young
 *  All rights reserved.
 *  
 *  See LICENSE.txt 
 */

#pragma once

#include ""hblas/hblas1.hpp""

#define HAXX_SWAP_UNROLL 3

namespace HAXX {

/**
 *  Swaps the elements of two strided quaternion arrays of length N
 *
 *  Written by DBWY (4/2017)
 *
 *  Based on the BLAS implementaion of DSWAP by Jack Dongarra
 *    http://www.netlib.org/lapack/explore-html/db/dd4/dswap_8f.html
 */
template <typename _F>
void HBLAS_SWAPV(const HAXX_INT N, quaternion<_F> * const X, 
  const HAXX_INT INCX, quaternion<_F> * const Y, const HAXX_INT INCY) {

  if( N <= 0 ) return;
  // FIXME: See further comments on negative stride
  assert(INCX > 0);
  assert(INCY > 0);

  HAXX_INT i;
  quaternion<_F> qtmp;

  if( INCX == 1 and INCY == 1 ) {
    HAXX_INT m = N % HAXX_SWAP_UNROLL;

    // Use unrolled loops for both unit increments

    // XXX: For some reason Z/CSWAP does not do this. 
    //   Cache utilization?
    if( m != 0 ) {
      for( i = 0; i < m; ++i ) {
        qtmp = X[i];
        X[i] = Y[i];
        Y[i] = qtmp;
      }
      if( N < HAXX_SWAP_UNROLL ) return;
    }

    // FIXME: This assumes HAXX_SWAP_UNROLL = 3
    for( i = m; i < N; i += HAXX_SWAP_UNROLL ) {
      qtmp = X[i];
      X[i] = Y[i];
      Y[i] = qtmp;

      qtmp   = X[i+1];
      X[i+1] = Y[i+1];
      Y[i+1] = qtmp;

      qtmp   = X[i+2];
      X[i+2] = Y[i+2];
      Y[i+2] = qtmp;
    }

  } else {

    HAXX_INT ix(0), iy(0);
    // FIXME: the original _SWAP function has code here to handle
    //   negative increments. Unsure on what that accomplishes

    for( i = 0; i < N; ++i, ix += INCX, iy += INCY ) { 
      qtmp = X[ix];
      X[ix] = Y[iy];
      Y[iy] = qtmp;
    }
  }

};

}; // namespace HAXX


".
(** include/hblas/generic/hblas1/hblas_copyv_impl.hpp, all 70 lines *)
Definition csrc_copyv_impl : string := "/*
 *  This file is a part of HAXX
 *  
 *  Copyright (c) 2017 David Williams-Young
 *  All rights reserved.
 *  
 *  See LICENSE.txt 
 */

#pragma once 

#include ""hblas/hblas1.hpp""

#define HAXX_COPY_UNROLL 7

namespace HAXX {

/**
 *  Copies the elememts from one quaternion vector to another
 *
 *  Written by DBWY (4/2017)
 *
 *  Based on the BLAS implementaion of DCOPY by Jack Dongarra
 *    http://www.netlib.org/lapack/explore-html/da/d6c/dcopy_8f.html
 */
template <typename _F>
void HBLAS_COPYV(const HAXX_INT N, quaternion<_F> * const X, 
  const HAXX_INT INCX, quaternion<_F> * const Y, const HAXX_INT INCY) {

  if( N <= 0 ) return;
  // FIXME: See further comments on negative stride
  assert(INCX > 0);
  assert(INCY > 0);

  HAXX_INT i;

  if( INCX == 1 and INCY == 1 ) {

    HAXX_INT m = N % HAXX_COPY_UNROLL;
    if( m != 0 ) {
      for( i = 0; i < m; i++ ) Y[i] = X[i];
      if( N < HAXX_COPY_UNROLL ) return;
    }

    // FIXME: This assumes HAXX_COPY_UNROLL = 7
    for( i = m; i < N; i += HAXX_COPY_UNROLL ) {
      Y[i]   = X[i];
      Y[i+1] = X[i+1];
      Y[i+2] = X[i+2];
      Y[i+3] = X[i+3];
      Y[i+4] = X[i+4];
      Y[i+5] = X[i+5];
      Y[i+6] = X[i+6];
    }

  } else {

    HAXX_INT ix(0), iy(0);
    // FIXME: the original _COPY function has code here to handle
    //   negative increments. Unsure on what that accomplishes

    for( i = 0; i < N; ++i, ix += INCX, iy += INCY ) Y[iy] = X[ix];
      

  }
};

}; // namespace HAXX


".
(** include/hblas/generic/hblas1/hblas_scalv_impl.hpp, all 89 lines *)
Definition csrc_scalv_impl : string := "/*
 *  This file is a part of HAXX
 *  
 *  Copyright (c) 2017 David Williams-Young
 *  All rights reserved.
 *  
 *  See LICENSE.txt 
 */

#pragma once

#include ""hblas/hblas1.hpp""
#include <iostream>

#define HAXX_SCAL_UNROLL 5

namespace HAXX {

/**
 *  Scales a quaternion vector in place
 *
 *  Written by DBWY (4/2017)
 *
 *  Based on the BLAS implementaion of DSCAL by Jack Dongarra
 *    http://www.netlib.org/lapack/explore-html/d4/dd0/dscal_8f.html 
 *
 *  SIDE == 'L'
 *
 *  \f$ x_i = \alpha x_i \f$
 *
 *  SIDE == 'R'
 *
 *  \f$ x_i = x_i \alpha  \f$
 */
template <typename _F, typename _AlphaF>
void HBLAS_SCALV(const char SIDE, const HAXX_INT N, const _AlphaF ALPHA, 
  quaternion<_F> * const X, const HAXX_INT INCX) {

  if( N <= 0 or INCX <= 0 ) return;

  HAXX_INT i;

  // FIXME: Should write a specialization for real ALPHA where side
  //   doesnt matter
  bool isR = SIDE == 'R';
  bool isL = not isR;

  if( INCX == 1 ) {
    HAXX_INT m = N % HAXX_SCAL_UNROLL;
  
    if( m != 0 ) {
      if( isL ) for( i = 0; i < m; ++i ) X[i] = ALPHA * X[i];
      else      for( i = 0; i < m; ++i ) X[i] = X[i] * ALPHA;

      if( N < HAXX_SCAL_UNROLL ) return;
    }

    // FIXME: This assumes HAXX_SCAL_UNROLL = 5
    if( isL )
      for( i = m; i < N; i += HAXX_SCAL_UNROLL ) {
        X[i]   = ALPHA * X[i];
        X[i+1] = ALPHA * X[i+1];
        X[i+2] = ALPHA * X[i+2];
        X[i+3] = ALPHA * X[i+3];
        X[i+4] = ALPHA * X[i+4];
      }
    else
      for( i = m; i < N; i += HAXX_SCAL_UNROLL ) {
        X[i]   = X[i]   * ALPHA; 
        X[i+1] = X[i+1] * ALPHA; 
        X[i+2] = X[i+2] * ALPHA; 
        X[i+3] = X[i+3] * ALPHA; 
        X[i+4] = X[i+4] * ALPHA; 
      }
  } else {

    HAXX_INT NINCX = N*INCX;
    if( isL ) for( i = 0; i < NINCX; i += INCX ) X[i] = ALPHA * X[i];
    else      for( i = 0; i < NINCX; i += INCX ) X[i] = X[i] * ALPHA;

  }


};



}; // namespace HAXX

".
(** include/hblas/generic/hblas1/hblas_axpyv_impl.hpp, all 98 lines *)
Definition csrc_axpyv_impl : string := "/*
 *  This file is a part of HAXX
 *  
 *  Copyright (c) 2017 David Williams-Young
 *  All rights reserved.
 *  
 *  See LICENSE.txt 
 */

#pragma once

#include ""hblas/hblas1.hpp""

#define HAXX_AXPY_UNROLL 4

namespace HAXX {

/**
 *  Written by DBWY (4/2017)
 *
 *  Based on the BLAS implementaion of DCOPY by Jack Dongarra
 *    http://www.netlib.org/lapack/explore-html/d9/dcd/daxpy_8f.html
 *
 *
 *  \f$ y \in \mathbb{H} \qquad x,\alpha \in \mathbb{R},\mathbb{C},\mathbb{H} \f$
 *
 *  SIDE == 'L'
 *
 *  \f$ y_i = \alpha x_i  + y_i\f$
 *
 *  SIDE == 'R'
 *
 *  \f$ y_i = x_i \alpha + y_i \f$
 */
template <typename _F, typename _XF, typename _AlphaF>
void HBLAS_AXPYV(const char SIDE, const HAXX_INT N, const _AlphaF ALPHA, 
  _XF * const X, const HAXX_INT INCX, quaternion<_F> * const Y, 
  const HAXX_INT INCY) {

  
  if( N <= 0 ) return;
  if( ALPHA == _AlphaF(0.) ) return;

  // FIXME: See further comments on negative stride
  assert(INCX > 0);
  assert(INCY > 0);

  HAXX_INT i;

  // FIXME: Should write a specialization for real ALPHA where side
  //   doesnt matter
  bool isR = SIDE == 'R';
  bool isL = not isR;

  if( INCX == 1 and INCY == 1 ) {
    HAXX_INT m = N % HAXX_AXPY_UNROLL;

    if( m != 0) {
      if( isL ) for( i = 0; i < m; ++i ) Y[i] += ALPHA * X[i];
      else      for( i = 0; i < m; ++i ) Y[i] += X[i] * ALPHA;

      // XXX: DAXPY has this outside of the if-check? Unline COPY and SCAL
      if( N < HAXX_AXPY_UNROLL ) return;
    }

    // FIXME: This assumes HAXX_AXPY_UNROLL = 4
    if( isL )
      for( i = m; i < N; i += HAXX_AXPY_UNROLL ) {
        Y[i]   += ALPHA * X[i];
        Y[i+1] += ALPHA * X[i+1];
        Y[i+2] += ALPHA * X[i+2];
        Y[i+3] += ALPHA * X[i+3];
      }
    else
      for( i = m; i < N; i += HAXX_AXPY_UNROLL ) {
        Y[i]   += X[i]   * ALPHA; 
        Y[i+1] += X[i+1] * ALPHA; 
        Y[i+2] += X[i+2] * ALPHA; 
        Y[i+3] += X[i+3] * ALPHA; 
      }
  } else {

    HAXX_INT ix(0), iy(0);
    // FIXME: the original _AXPY function has code here to handle
    //   negative increments. Unsure on what that accomplishes

    if( isL ) 
      for( i = 0; i < N; ++i, ix += INCX, iy += INCY ) Y[iy] += ALPHA * X[ix];
    else      
      for( i = 0; i < N; ++i, ix += INCX, iy += INCY ) Y[iy] += X[ix] * ALPHA;

  }
};




}; // namespace HAXX
".
(** include/hblas/generic/hblas1/hblas_dotuv_impl.hpp, all 56 lines *)
Definition csrc_dotuv_impl : string := "/*
 *  This file is a part of HAXX
 *  
 *  Copyright (c) 2017 David Williams-Young
 *  All rights reserved.
 *  
 *  See LICENSE.txt 
 */

#pragma once

#include ""hblas/hblas1.hpp""

namespace HAXX {

/**
 *  Written by DBWY (4/2017)
 *
 *  Based on the BLAS implementation of ZDOTU by Jack Dongarra
 *    http://www.netlib.org/lapack/explore-html/db/d2d/zdotu_8f.html 
 *
 * \f$ r,x,y \in \mathbb{H}, \qquad r = \sum_i x_i y_i \f$
 */
template <typename _F>
quaternion<_F> HBLAS_DOTUV(const HAXX_INT N, quaternion<_F> * const X, 
  const HAXX_INT INCX, quaternion<_F> * const Y, const HAXX_INT INCY) {

  quaternion<_F> htemp(0.,0.,0.,0.);
  if( N <= 0 ) return htemp;

  // FIXME: See further comments on negative stride
  assert(INCX > 0);
  assert(INCY > 0);

  HAXX_INT i;

  if( INCX == 1 and INCY == 1 ) {

    for( i = 0; i < N; ++i ) htemp += X[i]*Y[i];

  } else {

    HAXX_INT ix(0), iy(0);
    // FIXME: the original _AXPY function has code here to handle
    //   negative increments. Unsure on what that accomplishes
      
    for( i = 0; i < N; ++i, ix += INCX, iy += INCY ) { 
      htemp += X[ix] * Y[iy];
    }
  }  

  return htemp;
};


}; // namespace HAXX
".
(** include/hblas/generic/hblas1/hblas_dotcv_impl.hpp, all 56 lines *)
Definition csrc_dotcv_impl : string := "/*
 *  This file is a part of HAXX
 *  
 *  Copyright (c) 2017 David Williams-Young
 *  All rights reserved.
 *  
 *  See LICENSE.txt 
 */

#pragma once

#include ""hblas/hblas1.hpp""

namespace HAXX {

/**
 *  Written by DBWY (4/2017)
 *
 *  Based on the BLAS implementation of ZDOTU by Jack Dongarra
 *    http://www.netlib.org/lapack/explore-html/d6/db8/zdotc_8f.html
 *
 * \f$ r,x,y \in \mathbb{H}, \qquad r = \sum_i x^*_i y_i \f$
 */
template <typename _F>
quaternion<_F> HBLAS_DOTCV(const HAXX_INT N, quaternion<_F> * const X, 
  const HAXX_INT INCX, quaternion<_F> * const Y, const HAXX_INT INCY) {

  quaternion<_F> htemp(0.,0.,0.,0.);

  if( N <= 0 ) return htemp;

  // FIXME: See further comments on negative stride
  assert(INCX > 0);
  assert(INCY > 0);

  HAXX_INT i;

  if( INCX == 1 and INCY == 1 ) {

    for( i = 0; i < N; ++i ) htemp += conj(X[i])*Y[i];

  } else {

    HAXX_INT ix(0), iy(0);
    // FIXME: the original _AXPY function has code here to handle
    //   negative increments. Unsure on what that accomplishes
      
    for( i = 0; i < N; ++i, ix += INCX, iy += INCY ) 
      htemp += conj(X[ix]) * Y[iy];
  }  

  return htemp;
};


}; // namespace HAXX
".
(** include/hblas/generic/hblas1/hblas_scalm_impl.hpp, all 47 lines *)
Definition csrc_scalm_impl : string := "/*
 *  This file is a part of HAXX
 *  
 *  Copyright (c) 2017 David Williams-Young
 *  All rights reserved.
 *  
 *  See LICENSE.txt 
 */

#pragma once

#include <cassert>

#include ""hblas/hblas1.hpp""


namespace HAXX {

/**
 *  Scale / Transpose / Conjugate a quaternion matrix in place
 *
 *  Written by DBWY (9/2017)
 */
template <typename _F, typename _AlphaF>
void HBLAS_SCALM(const char SIDE, const char TRANSA, const HAXX_INT M, 
  const HAXX_INT N, const _AlphaF ALPHA, quaternion<_F> * const A, 
  const HAXX_INT LDA, const HAXX_INT INCA) {

  if( N <= 0 or M <= 0 or INCA <= 0 ) return;
  assert(TRANSA == 'N'); // Only supporting scaling for now

  HAXX_INT j;

  quaternion<_F> *locA = A;

  for( j = 0; j < N; j++ ) {
    HBLAS_SCALV(SIDE,M,ALPHA,locA,INCA);
    locA += LDA;
  }


};



}; // namespace HAXX

".
(** include/hblas/generic/hblas1/hblas_axpym_impl.hpp, all 47 lines *)
Definition csrc_axpym_impl : string := "/*
 *  This file is a part of HAXX
 *  
 *  Copyright (c) 2017 David Williams-Young
 *  All rights reserved.
 *  
 *  See LICENSE.txt 
 */

#pragma once

#include <cassert>
#include ""hblas/hblas1.hpp""

namespace HAXX {

/**
 *  Written by DBWY (4/2017)
 */
template <typename _F, typename _XF, typename _AlphaF>
void HBLAS_AXPYM(const char SIDE, const char TRANSA, const HAXX_INT M, 
  const HAXX_INT N, const _AlphaF ALPHA, _XF * const A, const HAXX_INT LDA, 
  const HAXX_INT INCA, quaternion<_F> * const B, const HAXX_INT LDB, 
  const HAXX_INT INCB) {

  
  if( N <= 0 or M <= 0) return;
  if( ALPHA == _AlphaF(0.) ) return;

  assert(TRANSA == 'N'); // Only supporting scaling for now

  HAXX_INT j;
  
  quaternion<_F> *locA = A, *locB = B;

  for( j = 0; j < N; j++ ) {
    HBLAS_AXPYV(SIDE,M,ALPHA,locA,INCA,locB,INCB);
    locA += LDA;
    locB += LDB;
  }

};




}; // namespace HAXX
".
(** include/hblas/generic/hblas2/hblas_gemv_impl.hpp, all 216 lines *)
Definition csrc_gemv_impl : string := "/*
 *  This file is a part of HAXX
 *  
 *  Copyright (c) 2017 David Williams-Young
 *  All rights reserved.
 *  
 *  See LICENSE.txt 
 */

#ifndef __INCLUDED_HBLAS_GEMV_IMPL_HPP
#define __INCLUDED_HBLAS_GEMV_IMPL_HPP

#include <cassert>
#include ""hblas/hblas2.hpp""

namespace HAXX {

/**
 *  Written by DBWY (4/2017)
 *
 *  Based on the BLAS implementation of ZGEMV by
 *    Jack Dongarra   (Argonne)
 *    Jeremy Du Croz  (NAG)
 *    Sven Hammarling (NAG)
 *    Richard Hanson  (Sandia)
 *
 *  Performs one of the matrix - vector operations
 *
 *  \f$ y \in \mathbb{H} \qquad x,\alpha,A \in \mathbb{R},\mathbb{C},\mathbb{H}\f$
 *
 *  TRANS = 'N'
 *
 *  \f$ y_i = \alpha A_{ij} x_j + \beta y_i\f$
 *
 *  TRANS = 'T'
 *
 *  \f$ y_i = \alpha A_{ji} x_j + \beta y_i\f$
 *
 *  TRANS = 'C'
 *
 *  \f$ y_i = \alpha A^*_{ji} x_j + \beta y_i\f$
 *
 *
 */
// FIXME: In this implementaion, it has been implied that scalars
// will always multiply from the left. Should generalize in such a
// was to allow flexibility in both ALPHA and BETA
template <typename _F,typename _MatF, typename _VecF, typename _AlphaF, 
  typename _BetaF>
void HBLAS_GEMV(const char TRANS, const HAXX_INT M, const HAXX_INT N, 
  const _AlphaF ALPHA, _MatF * const A, const HAXX_INT LDA, _VecF * const X, 
  const HAXX_INT INCX, const _BetaF BETA, quaternion<_F> * const Y, 
  const HAXX_INT INCY) {

  // FIXME: Should write functions to check quaternion equality
  //   to real / complex
  if( M == 0 or N == 0 or (ALPHA == _AlphaF(0.) and BETA == _BetaF(1.)) )
    return;

  // FIXME: The original BLAS implementaion has logic to handle
  //   negative strides. See further comments.
  assert( INCX > 0 );
  assert( INCY > 0 );

  bool NOCONJ = TRANS == 'T';

  HAXX_INT LENX = N, LENY = M;
  if( TRANS != 'N' ) {
    LENX = M;
    LENY = N;
  }

  // Indexing variables
  HAXX_INT i, j, iy, jx, ix, jy;

  // FIXME: These parameters are effected in the orignal BLAS
  //   implementaion by negative strides
  HAXX_INT KX = 0, KY = 0;
  quaternion<_F> htemp1, htemp2;

  // Form y = beta * y
  if( BETA != _BetaF(1.) ) {

    if( INCY == 1 ) {

      if( BETA == _BetaF(0.) ) 
        // XXX: STL call to fill_n?
        for( i = 0; i < LENY; ++i ) Y[i] = 0.; 
      else 
        // XXX: Why not use a level 1 BLAS call here?
        for( i = 0; i < LENY; ++i ) Y[i] = BETA * Y[i];

    } else { // end INCY == 1

      iy = KY;
      if( BETA == _BetaF(0.) ) 
        // XXX: STL call to fill_n
        for( i = 0; i < LENY; ++i, iy += INCY ) Y[iy] = 0.; 
      else
        // XXX: Why not use a level 1 BLAS call here?
        for( i = 0; i < LENY; ++i, iy += INCY ) Y[iy] = BETA * Y[iy]; 
      
    } // end INCY != 1

  } // end BETA == 1


  // Return if ALPHA == 0 as there's nothing more to  do
  if( ALPHA == _AlphaF(0.) ) return;

  if( TRANS == 'N' ) {

    // Form y_i = alpha * A_{ij} * x_j + beta * y_i

    jx = KX;
    if( INCY == 1 ) {

      for ( j = 0; j < N; ++j, jx += INCX ) {

        // alpha * A_{ij} * x_j = 
        //   [alpha,A_{ij}] * x_j + A_{ij} * (alpha * x_j)
        htemp1 = ALPHA * X[jx];
        for( i = 0; i < M; ++i ) {

          // y_j = y_j + A_{ij} * (alpha * x_j)
          Y[i] += A[RANK2_INDX(i,j,LDA)] * htemp1;

          // FIXME: This will probably kill vectorization
          //   Maybe just deal with the explicit left multiplication
          //   of Alpha?
          // y_j = y_j + [alpha,A_{ij}] * x_j
          //Y[i] += comm(ALPHA,A[RANK2_INDX(i,j,LDA)]) * X[jx];
          Y[i] += (ALPHA*A[RANK2_INDX(i,j,LDA)] - A[RANK2_INDX(i,j,LDA)]*ALPHA)  * X[jx];

        } // end i loop

      } // end j loop

    } else { // end INCY == 1

      for ( j = 0; j < N; ++j, jx += INCX ) {

        // alpha * A_{ij} * x_j = 
        //   [alpha,A_{ij}] * x_j + A_{ij} * (alpha * x_j)
        htemp1 = ALPHA * X[jx];
        for( i = 0, iy = KY; i < M; ++i, iy += INCY ) {

          // y_j = y_j + A_{ij} * (alpha * x_j)
          Y[iy] += A[RANK2_INDX(i,j,LDA)] * htemp1;

          // FIXME: This will probably kill vectorization
          //   Maybe just deal with the explicit left multiplication
          //   of Alpha?
          // y_j = y_j + [alpha,A_{ij}] * x_j
          //Y[iy] += comm(ALPHA,A[RANK2_INDX(i,j,LDA)]) * X[jx];
          Y[iy] += (ALPHA*A[RANK2_INDX(i,j,LDA)] - A[RANK2_INDX(i,j,LDA)]*ALPHA) * X[jx];

        } // end i loop

      } // end j loop

    } // end INCY != 1

  } else { // end TRANS == 'N'

    // form y_i = alpha * A_{ji} x_j + beta * y_i 
    //
    //   or 
    //
    // form y_i = alpha * A^*_{ji} x_j + beta * y_i 

    jy = KY;
    if( INCX == 1 ) {

      for( j = 0; j < N; ++j, jy += INCY ) {

        // XXX: Why not use a level 1 BLAS call here?
        htemp1 = 0.;
        if( NOCONJ )
          for( i = 0; i < M; ++i) 
            htemp1 += A[RANK2_INDX(i,j,LDA)] * X[i];
        else
          for( i = 0; i < M; ++i) 
            htemp1 += SmartConj(A[RANK2_INDX(i,j,LDA)]) * X[i];

        Y[jy] += ALPHA * htemp1;

      } // end j loop

    } else { // end INCX == 1

      for( j = 0; j < N; ++j, jy += INCY ) {

        // XXX: Why not use a level 1 BLAS call here?
        htemp1 = 0.;
        if( NOCONJ )
          for( i = 0, ix = KX; i < M; ++i, ix += INCX) 
            htemp1 += A[RANK2_INDX(i,j,LDA)] * X[ix];
        else
          for( i = 0, ix = KX; i < M; ++i, ix += INCX) 
            htemp1 += SmartConj(A[RANK2_INDX(i,j,LDA)]) * X[ix];

        Y[jy] += ALPHA * htemp1;

      } // end j loop

    } // end INCX != 1

  } // end TRANS != 'N'

}; // end GEMV


}; // namespace HAXX

#endif
".
(** include/hblas/generic/hblas2/hblas_geru_impl.hpp, all 88 lines *)
Definition csrc_geru_impl : string := "/*
 *  This file is a part of HAXX
 *  
 *  Copyright (c) 2017 David Williams-Young
 *  All rights reserved.
 *  
 *  See LICENSE.txt 
 */

#ifndef __INCLUDED_HBLAS_GERU_IMPL_HPP
#define __INCLUDED_HBLAS_GERU_IMPL_HPP

#include ""hblas/hblas2.hpp""

namespace HAXX {

/**
 *  Written by DBWY (4/2017)
 *
 *  Based on the BLAS implementation of ZGERU by
 *    Jack Dongarra   (Argonne)
 *    Jeremy Du Croz  (NAG)
 *    Sven Hammarling (NAG)
 *    Richard Hanson  (Sandia)
 *
 *  Performs the rank 1 operation
 *
 *  \f$ A_{ij} = A_{ij} + \alpha x_i y_j \f$ 
 *
 *  \f$ A \in \mathbb{H} \qquad x,y,\alpha \in \mathbb{R},\mathbb{C},\mathbb{H}\f$
 */
// FIXME: In this implementaion, it has been implied that scalars
// will always multiply from the left. Should generalize in such a
// was to allow flexibility in ALPHA 
template <typename _F, typename _LeftVecF, typename _RightVecF, 
  typename _AlphaF>
void HBLAS_GERU(const HAXX_INT M, const HAXX_INT N, const _AlphaF ALPHA, 
  _LeftVecF * const X, const HAXX_INT INCX, _RightVecF * const Y, 
  const HAXX_INT INCY, quaternion<_F> * const A, const HAXX_INT LDA) {

  if( M == 0 or N == 0 or ALPHA == _AlphaF(0.)) return;

  // FIXME: The original BLAS implementaion has logic to handle
  //   negative strides. See further comments.
  assert( INCX > 0 );
  assert( INCY > 0 );


  HAXX_INT i, j, ix;
  
  // FIXME: This parameter is effected in the orignal BLAS
  //   implementaion by negative stride
  HAXX_INT JY = 0;

  quaternion<_F> htemp1;
 
  if( INCX == 1 ) {

    for( j = 0; j < N; ++j, JY += INCY )
      if( Y[JY] != _RightVecF(0.) ) {
//      htemp1 = ALPHA * Y[JY];
        for( i = 0; i < M; ++i ) {
          A[RANK2_INDX(i,j,LDA)] += ALPHA * X[i] * Y[JY];
        }
      }

  } else { // end INCX == 1

    // FIXME: This parameter is effected in the orignal BLAS
    //   implementaion by negative stride
    HAXX_INT KX = 0;

    for( j = 0; j < N; ++j, JY += INCY )
      if( Y[JY] != _RightVecF(0.) ) {
//      htemp1 = ALPHA * Y[JY];
        for( i = 0, ix = KX; i < M; ++i, ix += INCX ) {
          A[RANK2_INDX(i,j,LDA)] += ALPHA * X[ix] * Y[JY];
        }
      }
  } // end INCX != 1

}; // end GERU



}; // namespace HAXX

#endif
".
(** include/hblas/generic/hblas2/hblas_gerc_impl.hpp, all 88 lines *)
Definition csrc_gerc_impl : string := "/*
 *  This file is a part of HAXX
 *  
 *  Copyright (c) 2017 David Williams-Young
 *  All rights reserved.
 *  
 *  See LICENSE.txt 
 */

#ifndef __INCLUDED_HBLAS_GERC_IMPL_HPP
#define __INCLUDED_HBLAS_GERC_IMPL_HPP

#include ""hblas/hblas2.hpp""

namespace HAXX {

/**
 *  Written by DBWY (4/2017)
 *
 *  Based on the BLAS implementation of ZGERC by
 *    Jack Dongarra   (Argonne)
 *    Jeremy Du Croz  (NAG)
 *    Sven Hammarling (NAG)
 *    Richard Hanson  (Sandia)
 *
 *  Performs the rank 1 operation
 *
 *  \f$ A_{ij} = A_{ij} + \alpha x_i y^*_j \f$ 
 *
 *  \f$ A \in \mathbb{H} \qquad x,y,\alpha \in \mathbb{R},\mathbb{C},\mathbb{H}\f$
 */
// FIXME: In this implementaion, it has been implied that scalars
// will always multiply from the left. Should generalize in such a
// was to allow flexibility in ALPHA 
template <typename _F, typename _LeftVecF, typename _RightVecF, 
  typename _AlphaF>
void HBLAS_GERC(const HAXX_INT M, const HAXX_INT N, const _AlphaF ALPHA, 
  _LeftVecF * const X, const HAXX_INT INCX, _RightVecF * const Y, 
  const HAXX_INT INCY, quaternion<_F> * const A, const HAXX_INT LDA) {

  if( M == 0 or N == 0 or ALPHA == _AlphaF(0.)) return;

  // FIXME: The original BLAS implementaion has logic to handle
  //   negative strides. See further comments.
  assert( INCX > 0 );
  assert( INCY > 0 );


  HAXX_INT i, j, ix;
  
  // FIXME: This parameter is effected in the orignal BLAS
  //   implementaion by negative stride
  HAXX_INT JY = 0;

  quaternion<_F> htemp1;
 
  if( INCX == 1 ) {

    for( j = 0; j < N; ++j, JY += INCY )
      if( Y[JY] != _RightVecF(0.) ) {
//      htemp1 = ALPHA * Y[JY];
        for( i = 0; i < M; ++i ) {
          A[RANK2_INDX(i,j,LDA)] += ALPHA * X[i] * conj(Y[JY]);
        }
      }

  } else { // end INCX == 1

    // FIXME: This parameter is effected in the orignal BLAS
    //   implementaion by negative stride
    HAXX_INT KX = 0;

    for( j = 0; j < N; ++j, JY += INCY )
      if( Y[JY] != _RightVecF(0.) ) {
//      htemp1 = ALPHA * Y[JY];
        for( i = 0, ix = KX; i < M; ++i, ix += INCX ) {
          A[RANK2_INDX(i,j,LDA)] += ALPHA * X[ix] * conj(Y[JY]);
        }
      }
  } // end INCX != 1

}; // end GERC



}; // namspace HAXX

#endif
".
(** include/hblas/generic/hblas3/hblas_gemm_impl.hpp, all 232 lines *)
Definition csrc_gemm_impl : string := "/*
 *  This file is a part of HAXX
 *  
 *  Copyright (c) 2017 David Williams-Young
 *  All rights reserved.
 *  
 *  See LICENSE.txt 
 */

#ifndef __INCLUDED_HBLAS_GEMM_IMPL_HPP
#define __INCLUDED_HBLAS_GEMM_IMPL_HPP

#include ""hblas/hblas3.hpp""

namespace HAXX {

template <typename _F, typename _AMatF, typename _BMatF, typename _AlphaF, 
  typename _BetaF>
void HBLAS_GEMM(const char TRANSA, const char TRANSB, const HAXX_INT M, 
  const HAXX_INT N, const HAXX_INT K, const _AlphaF ALPHA, _AMatF * const A, 
  const HAXX_INT LDA, _BMatF * const B, const HAXX_INT LDB, 
  const _BetaF BETA, quaternion<_F> * const C, const HAXX_INT LDC) {


  bool NOTA  = TRANSA == 'N';
  bool NOTB  = TRANSB == 'N';
  bool CONJA = TRANSA == 'C';
  bool CONJB = TRANSB == 'C';

  HAXX_INT NROWA, NCOLA, NROWB;

  if( NOTA ) {
    NROWA = M;
    NCOLA = K;
  } else {
    NROWA = K;
    NCOLA = M;
  }

  if( NOTB ) NROWB = K;
  else       NROWB = N;

  // FIXME: Add asserts for input sanity check

  _AlphaF AlphaZero = _AlphaF(0.);
  _AlphaF AlphaOne  = _AlphaF(1.);

  _BetaF BetaZero = _BetaF(0.);
  _BetaF BetaOne  = _BetaF(1.);


  bool BetaIsZero = BETA == BetaZero;
  bool BetaIsOne  = BETA == BetaOne;
  bool AlphaIsZero = ALPHA == AlphaZero;
  bool AlphaIsOne  = ALPHA == AlphaOne;

  // Quick return
  if( (M == 0) or (N == 0) or
    ( (AlphaIsZero or (K == 0)) and BetaIsOne )) return;

  HAXX_INT i,j,l;
  quaternion<_F> htemp;

  quaternion<_F> *CCol; 
  _BMatF *BCol, *BRow;
  _AMatF *ACol;

  // If ALPHA is zero
  if( AlphaIsZero ) {
    if( BetaIsZero )
      for( j = 0; j < N; ++j ) {
        CCol = C + j*LDC;
        for( i = 0; i < M; ++i ) CCol[i] = 0.;
      }
    else
      for( j = 0; j < N; ++j ) {
        CCol = C + j*LDC;
        for( i = 0; i < M; ++i ) CCol[i] = BETA * CCol[i];
      }

    return; // Nothing more to to
  }

  if( NOTB ) {
    if( NOTA ) {
      for( j = 0; j < N; ++j ) {
        CCol = C + j*LDC;
        BCol = B + j*LDB;

        if( BetaIsZero )
          for( i = 0; i < M; ++i ) CCol[i] = 0.;
        else if( not BetaIsOne )
          for( i = 0; i < M; ++i ) CCol[i] = BETA * CCol[i]; 

        // FIXME: Need to figure out a way to cache something in the
        // outer loop
        for( l = 0; l < K; ++l ) {
          ACol = A + l*LDA;
          for( i = 0; i < M; ++i ) CCol[i] += ALPHA * ACol[i] * BCol[l];
        }
      } // end loop-j
    } else if ( CONJA ) { // end NOTA
      for( j = 0; j < N; ++j ) {
        CCol = C + j*LDC;
        BCol = B + j*LDB;

        for( i = 0; i < M; ++i ) { 
          ACol = A + i*LDA;
          htemp = 0.;
          for( l = 0; l < K; ++l ) htemp += SmartConj(ACol[l]) * BCol[l];
  
          if( BetaIsZero ) CCol[i] = ALPHA*htemp;
          else             CCol[i] = ALPHA*htemp + BETA*CCol[i];
        } // end loop-i
      } // end loop-j
    } else { // end CONJA
      // Implies TRANSA == 'T'
      for( j = 0; j < N; ++j ) {
        CCol = C + j*LDC;
        BCol = B + j*LDB;

        for( i = 0; i < M; ++i ) { 
          ACol = A + i*LDA;
          htemp = 0.;
          for( l = 0; l < K; ++l ) htemp += ACol[l] * BCol[l];
  
          if( BetaIsZero ) CCol[i] = ALPHA*htemp;
          else             CCol[i] = ALPHA*htemp + BETA*CCol[i];
        } // end loop-i
      } // end loop-j
    } // end TRANSA 
  } else if( NOTA ) { // end NOTB
    if( CONJB ) {
      for( j = 0; j < N; ++j ) {
        CCol = C + j*LDC;

        if( BetaIsZero )
          for( i = 0; i < M; ++i ) CCol[i] = 0.;
        else if( not BetaIsOne )
          for( i = 0; i < M; ++i ) CCol[i] = BETA * CCol[i];

        // FIXME: Need to figure out a way to cache something in the
        // outer loop
        for( l = 0; l < K; ++l ) {
          ACol = A + l*LDA;
          BCol = B + l*LDB;
          for( i = 0; i < M; ++i ) CCol[i] += ALPHA * ACol[i] * SmartConj(BCol[j]);
        }
      } // end loop-j
    } else { // end CONJB
      // Implies TRANSB == 'T'
      for( j = 0; j < N; ++j ) {
        CCol = C + j*LDC;

        if( BetaIsZero )
          for( i = 0; i < M; ++i ) CCol[i] = 0.;
        else if( not BetaIsOne )
          for( i = 0; i < M; ++i ) CCol[i] = BETA * CCol[i];

        // FIXME: Need to figure out a way to cache something in the
        // outer loop
        for( l = 0; l < K; ++l ) {
          ACol = A + l*LDA;
          BCol = B + l*LDB;
          for( i = 0; i < M; ++i ) CCol[i] += ALPHA * ACol[i] * BCol[j];
        }
      } // end loop-j
    } // end TRANSB
  } else if( CONJA ) { // end NOTA
    if( CONJB ) {
      for( j = 0; j < N; ++j ) { 
        CCol = C + j*LDC;
        BRow = B + j;
        for( i = 0; i < M; ++i ) { 
          ACol = A + i*LDA;
          htemp = 0.;
          for( l = 0; l < K; ++l ) htemp += SmartConj(ACol[l]) * SmartConj(BRow[l*LDB]);

          if( BetaIsZero ) CCol[i] = ALPHA*htemp;
          else             CCol[i] = ALPHA*htemp + BETA*CCol[i];
        } // end loop-i
      } // end loop-j
    } else { // end CONJB
      for( j = 0; j < N; ++j ) { 
        CCol = C + j*LDC;
        BRow = B + j;
        for( i = 0; i < M; ++i ) { 
          ACol = A + i*LDA;
          htemp = 0.;
          for( l = 0; l < K; ++l ) htemp += SmartConj(ACol[l]) * BRow[l*LDB];

          if( BetaIsZero ) CCol[i] = ALPHA*htemp;
          else             CCol[i] = ALPHA*htemp + BETA*CCol[i];
        } // end loop-i
      } // end loop-j
    } // end TRANSB
  } else { // end CONJA
    // Implies TRANSA == 'T'
    if( CONJB ) {
      for( j = 0; j < N; ++j ) { 
        CCol = C + j*LDC;
        BRow = B + j;
        for( i = 0; i < M; ++i ) { 
          ACol = A + i*LDA;
          htemp = 0.;
          for( l = 0; l < K; ++l ) htemp += ACol[l] * SmartConj(BRow[l*LDB]);

          if( BetaIsZero ) CCol[i] = ALPHA*htemp;
          else             CCol[i] = ALPHA*htemp + BETA*CCol[i];
        } // end loop-i
      } // end loop-j
    } else { // end CONJB
      for( j = 0; j < N; ++j ) { 
        CCol = C + j*LDC;
        BRow = B + j;
        for( i = 0; i < M; ++i ) { 
          ACol = A + i*LDA;
          htemp = 0.;
          for( l = 0; l < K; ++l ) htemp += ACol[l] * BRow[l*LDB];

          if( BetaIsZero ) CCol[i] = ALPHA*htemp;
          else             CCol[i] = ALPHA*htemp + BETA*CCol[i];
        } // end loop-i
      } // end loop-j
    } // end TRANSB
  }
};

}; // namespace HAXX

#endif

".
